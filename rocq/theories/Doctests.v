(* The examples of the docstrings of orient/planar.py, transcribed: the model
   gives the documented answers.  These are tests of the model, not theorems. *)
From Coq Require Import List ZArith.
From Verif Require Import Scalar Base Ground MLinear MSweep MCompound Planar.
Import ListNotations.
Open Scope Z_scope.

Example doc_point_in_segment_1 :
    point_in_segment (P 0 0) (Seg (P 0 0) (P 2 0)) = BOUNDARY.
Proof. vm_compute. reflexivity. Qed.
Example doc_point_in_segment_2 :
    point_in_segment (P 1 0) (Seg (P 0 0) (P 2 0)) = BOUNDARY.
Proof. vm_compute. reflexivity. Qed.
Example doc_point_in_segment_3 :
    point_in_segment (P 2 0) (Seg (P 0 0) (P 2 0)) = BOUNDARY.
Proof. vm_compute. reflexivity. Qed.
Example doc_point_in_segment_4 :
    point_in_segment (P 3 0) (Seg (P 0 0) (P 2 0)) = EXTERIOR.
Proof. vm_compute. reflexivity. Qed.
Example doc_point_in_segment_5 :
    point_in_segment (P 0 1) (Seg (P 0 0) (P 2 0)) = EXTERIOR.
Proof. vm_compute. reflexivity. Qed.
Example doc_segment_in_segment_1 :
    segment_in_segment (Seg (P 0 0) (P 0 2)) (Seg (P 0 0) (P 2 0)) = TOUCH.
Proof. vm_compute. reflexivity. Qed.
Example doc_segment_in_segment_2 :
    segment_in_segment (Seg (P 0 0) (P 1 0)) (Seg (P 0 0) (P 2 0)) = COMPONENT.
Proof. vm_compute. reflexivity. Qed.
Example doc_segment_in_segment_3 :
    segment_in_segment (Seg (P 0 0) (P 2 0)) (Seg (P 0 0) (P 2 0)) = EQUAL.
Proof. vm_compute. reflexivity. Qed.
Example doc_segment_in_segment_4 :
    segment_in_segment (Seg (P 0 0) (P 3 0)) (Seg (P 0 0) (P 2 0)) = COMPOSITE.
Proof. vm_compute. reflexivity. Qed.
Example doc_segment_in_segment_5 :
    segment_in_segment (Seg (P 1 0) (P 3 0)) (Seg (P 0 0) (P 2 0)) = OVERLAP.
Proof. vm_compute. reflexivity. Qed.
Example doc_segment_in_segment_6 :
    segment_in_segment (Seg (P 2 0) (P 3 0)) (Seg (P 0 0) (P 2 0)) = TOUCH.
Proof. vm_compute. reflexivity. Qed.
Example doc_segment_in_segment_7 :
    segment_in_segment (Seg (P 3 0) (P 4 0)) (Seg (P 0 0) (P 2 0)) = DISJOINT.
Proof. vm_compute. reflexivity. Qed.
Example doc_point_in_multisegment_1 :
    point_in_multisegment (P 0 0) (MSeg [Seg (P 0 0) (P 1 0); Seg (P 3 0) (P 5 0)]) = BOUNDARY.
Proof. vm_compute. reflexivity. Qed.
Example doc_point_in_multisegment_2 :
    point_in_multisegment (P 0 1) (MSeg [Seg (P 0 0) (P 1 0); Seg (P 3 0) (P 5 0)]) = EXTERIOR.
Proof. vm_compute. reflexivity. Qed.
Example doc_point_in_multisegment_3 :
    point_in_multisegment (P 1 0) (MSeg [Seg (P 0 0) (P 1 0); Seg (P 3 0) (P 5 0)]) = BOUNDARY.
Proof. vm_compute. reflexivity. Qed.
Example doc_point_in_multisegment_4 :
    point_in_multisegment (P 2 0) (MSeg [Seg (P 0 0) (P 1 0); Seg (P 3 0) (P 5 0)]) = EXTERIOR.
Proof. vm_compute. reflexivity. Qed.
Example doc_point_in_multisegment_5 :
    point_in_multisegment (P 3 0) (MSeg [Seg (P 0 0) (P 1 0); Seg (P 3 0) (P 5 0)]) = BOUNDARY.
Proof. vm_compute. reflexivity. Qed.
Example doc_point_in_multisegment_6 :
    point_in_multisegment (P 4 0) (MSeg [Seg (P 0 0) (P 1 0); Seg (P 3 0) (P 5 0)]) = BOUNDARY.
Proof. vm_compute. reflexivity. Qed.
Example doc_segment_in_multisegment_1 :
    segment_in_multisegment (Seg (P 0 0) (P 1 0)) (MSeg [Seg (P 0 0) (P 1 1); Seg (P 1 1) (P 3
    3)]) = TOUCH.
Proof. vm_compute. reflexivity. Qed.
Example doc_segment_in_multisegment_2 :
    segment_in_multisegment (Seg (P 0 0) (P 0 1)) (MSeg [Seg (P 0 0) (P 1 1); Seg (P 1 1) (P 3
    3)]) = TOUCH.
Proof. vm_compute. reflexivity. Qed.
Example doc_segment_in_multisegment_3 :
    segment_in_multisegment (Seg (P 0 1) (P 1 0)) (MSeg [Seg (P 0 0) (P 1 1); Seg (P 1 1) (P 3
    3)]) = CROSS.
Proof. vm_compute. reflexivity. Qed.
Example doc_segment_in_multisegment_4 :
    segment_in_multisegment (Seg (P 0 0) (P 1 1)) (MSeg [Seg (P 0 0) (P 1 1); Seg (P 1 1) (P 3
    3)]) = COMPONENT.
Proof. vm_compute. reflexivity. Qed.
Example doc_segment_in_multisegment_5 :
    segment_in_multisegment (Seg (P 0 0) (P 3 3)) (MSeg [Seg (P 0 0) (P 1 1); Seg (P 1 1) (P 3
    3)]) = EQUAL.
Proof. vm_compute. reflexivity. Qed.
Example doc_segment_in_multisegment_6 :
    segment_in_multisegment (Seg (P 2 2) (P 4 4)) (MSeg [Seg (P 0 0) (P 1 1); Seg (P 1 1) (P 3
    3)]) = OVERLAP.
Proof. vm_compute. reflexivity. Qed.
Example doc_segment_in_multisegment_7 :
    segment_in_multisegment (Seg (P 4 4) (P 5 5)) (MSeg [Seg (P 0 0) (P 1 1); Seg (P 1 1) (P 3
    3)]) = DISJOINT.
Proof. vm_compute. reflexivity. Qed.
Example doc_multisegment_in_multisegment_1 :
    multisegment_in_multisegment (MSeg [Seg (P 1 1) (P 3 1); Seg (P 1 3) (P 1 1); Seg (P 3 1) (P
    3 3); Seg (P 1 3) (P 3 3)]) (MSeg [Seg (P 0 0) (P 4 0); Seg (P 0 0) (P 0 4); Seg (P 4 0) (P
    4 4); Seg (P 0 4) (P 4 4)]) = Ok DISJOINT.
Proof. vm_compute. reflexivity. Qed.
Example doc_multisegment_in_multisegment_2 :
    multisegment_in_multisegment (MSeg [Seg (P 0 0) (P 2 2); Seg (P 2 2) (P 4 0); Seg (P 2 2) (P
    4 4); Seg (P 0 4) (P 2 2)]) (MSeg [Seg (P 0 0) (P 4 0); Seg (P 0 0) (P 0 4); Seg (P 4 0) (P
    4 4); Seg (P 0 4) (P 4 4)]) = Ok TOUCH.
Proof. vm_compute. reflexivity. Qed.
Example doc_multisegment_in_multisegment_3 :
    multisegment_in_multisegment (MSeg [Seg (P 0 0) (P 2 2); Seg (P 2 2) (P 4 0); Seg (P 2 2) (P
    4 4); Seg (P 0 4) (P 2 2)]) (MSeg [Seg (P 1 1) (P 3 1); Seg (P 1 3) (P 1 1); Seg (P 3 1) (P
    3 3); Seg (P 1 3) (P 3 3)]) = Ok CROSS.
Proof. vm_compute. reflexivity. Qed.
Example doc_multisegment_in_multisegment_4 :
    multisegment_in_multisegment (MSeg [Seg (P 1 1) (P 3 1); Seg (P 1 3) (P 1 1); Seg (P 3 1) (P
    3 3); Seg (P 1 3) (P 3 3); Seg (P 0 0) (P 4 0)]) (MSeg [Seg (P 0 0) (P 4 0); Seg (P 0 0) (P
    0 4); Seg (P 4 0) (P 4 4); Seg (P 0 4) (P 4 4)]) = Ok OVERLAP.
Proof. vm_compute. reflexivity. Qed.
Example doc_multisegment_in_multisegment_5 :
    multisegment_in_multisegment (MSeg [Seg (P 0 0) (P 4 0); Seg (P 0 0) (P 0 4); Seg (P 4 0) (P
    4 4); Seg (P 0 4) (P 4 4); Seg (P 1 1) (P 3 1); Seg (P 1 3) (P 1 1); Seg (P 3 1) (P 3 3);
    Seg (P 1 3) (P 3 3)]) (MSeg [Seg (P 0 0) (P 4 0); Seg (P 0 0) (P 0 4); Seg (P 4 0) (P 4 4);
    Seg (P 0 4) (P 4 4)]) = Ok COMPOSITE.
Proof. vm_compute. reflexivity. Qed.
Example doc_multisegment_in_multisegment_6 :
    multisegment_in_multisegment (MSeg [Seg (P 0 0) (P 4 0); Seg (P 0 0) (P 0 4); Seg (P 4 0) (P
    4 4); Seg (P 0 4) (P 4 4)]) (MSeg [Seg (P 0 0) (P 4 0); Seg (P 0 0) (P 0 4); Seg (P 4 0) (P
    4 4); Seg (P 0 4) (P 4 4)]) = Ok EQUAL.
Proof. vm_compute. reflexivity. Qed.
Example doc_multisegment_in_multisegment_7 :
    multisegment_in_multisegment (MSeg [Seg (P 0 0) (P 4 0); Seg (P 0 0) (P 0 4); Seg (P 4 0) (P
    4 4); Seg (P 0 4) (P 4 4)]) (MSeg [Seg (P 0 0) (P 4 0); Seg (P 0 0) (P 0 4); Seg (P 4 0) (P
    4 4); Seg (P 0 4) (P 4 4); Seg (P 1 1) (P 3 1); Seg (P 1 3) (P 1 1); Seg (P 3 1) (P 3 3);
    Seg (P 1 3) (P 3 3)]) = Ok COMPONENT.
Proof. vm_compute. reflexivity. Qed.
Example doc_point_in_contour_1 :
    point_in_contour (P 0 0) (Ctr [P 0 0; P 2 0; P 2 2; P 0 2]) = BOUNDARY.
Proof. vm_compute. reflexivity. Qed.
Example doc_point_in_contour_2 :
    point_in_contour (P 1 1) (Ctr [P 0 0; P 2 0; P 2 2; P 0 2]) = EXTERIOR.
Proof. vm_compute. reflexivity. Qed.
Example doc_point_in_contour_3 :
    point_in_contour (P 2 2) (Ctr [P 0 0; P 2 0; P 2 2; P 0 2]) = BOUNDARY.
Proof. vm_compute. reflexivity. Qed.
Example doc_point_in_contour_4 :
    point_in_contour (P 3 3) (Ctr [P 0 0; P 2 0; P 2 2; P 0 2]) = EXTERIOR.
Proof. vm_compute. reflexivity. Qed.
Example doc_segment_in_contour_1 :
    segment_in_contour (Seg (P 0 0) (P 1 0)) (Ctr [P 0 0; P 3 0; P 3 3; P 0 3]) = Ok COMPONENT.
Proof. vm_compute. reflexivity. Qed.
Example doc_segment_in_contour_2 :
    segment_in_contour (Seg (P 0 0) (P 3 0)) (Ctr [P 0 0; P 3 0; P 3 3; P 0 3]) = Ok COMPONENT.
Proof. vm_compute. reflexivity. Qed.
Example doc_segment_in_contour_3 :
    segment_in_contour (Seg (P 2 0) (P 4 0)) (Ctr [P 0 0; P 3 0; P 3 3; P 0 3]) = Ok OVERLAP.
Proof. vm_compute. reflexivity. Qed.
Example doc_segment_in_contour_4 :
    segment_in_contour (Seg (P 4 0) (P 5 0)) (Ctr [P 0 0; P 3 0; P 3 3; P 0 3]) = Ok DISJOINT.
Proof. vm_compute. reflexivity. Qed.
Example doc_segment_in_contour_5 :
    segment_in_contour (Seg (P 1 0) (P 1 2)) (Ctr [P 0 0; P 3 0; P 3 3; P 0 3]) = Ok TOUCH.
Proof. vm_compute. reflexivity. Qed.
Example doc_segment_in_contour_6 :
    segment_in_contour (Seg (P 0 0) (P 1 1)) (Ctr [P 0 0; P 3 0; P 3 3; P 0 3]) = Ok TOUCH.
Proof. vm_compute. reflexivity. Qed.
Example doc_segment_in_contour_7 :
    segment_in_contour (Seg (P 1 1) (P 2 2)) (Ctr [P 0 0; P 3 0; P 3 3; P 0 3]) = Ok DISJOINT.
Proof. vm_compute. reflexivity. Qed.
Example doc_segment_in_contour_8 :
    segment_in_contour (Seg (P 2 2) (P 4 4)) (Ctr [P 0 0; P 3 0; P 3 3; P 0 3]) = Ok CROSS.
Proof. vm_compute. reflexivity. Qed.
Example doc_multisegment_in_contour_1 :
    multisegment_in_contour (MSeg [Seg (P 1 1) (P 3 1); Seg (P 1 3) (P 1 1); Seg (P 3 1) (P 3
    3); Seg (P 1 3) (P 3 3)]) (Ctr [P 0 0; P 4 0; P 4 4; P 0 4]) = Ok DISJOINT.
Proof. vm_compute. reflexivity. Qed.
Example doc_multisegment_in_contour_2 :
    multisegment_in_contour (MSeg [Seg (P 0 0) (P 2 2); Seg (P 2 2) (P 4 0); Seg (P 2 2) (P 4
    4); Seg (P 0 4) (P 2 2)]) (Ctr [P 0 0; P 4 0; P 4 4; P 0 4]) = Ok TOUCH.
Proof. vm_compute. reflexivity. Qed.
Example doc_multisegment_in_contour_3 :
    multisegment_in_contour (MSeg [Seg (P 0 0) (P 2 2); Seg (P 2 2) (P 4 0); Seg (P 2 2) (P 4
    4); Seg (P 0 4) (P 2 2)]) (Ctr [P 1 1; P 3 1; P 3 3; P 1 3]) = Ok CROSS.
Proof. vm_compute. reflexivity. Qed.
Example doc_multisegment_in_contour_4 :
    multisegment_in_contour (MSeg [Seg (P 0 0) (P 2 2); Seg (P 2 2) (P 4 0); Seg (P 2 2) (P 4
    4); Seg (P 0 4) (P 2 2); Seg (P 0 0) (P 4 0)]) (Ctr [P 0 0; P 4 0; P 4 4; P 0 4]) = Ok
    OVERLAP.
Proof. vm_compute. reflexivity. Qed.
Example doc_multisegment_in_contour_5 :
    multisegment_in_contour (MSeg [Seg (P 0 0) (P 2 2); Seg (P 2 2) (P 4 0); Seg (P 2 2) (P 4
    4); Seg (P 0 4) (P 2 2); Seg (P 0 0) (P 4 0); Seg (P 0 0) (P 0 4); Seg (P 4 0) (P 4 4); Seg
    (P 0 4) (P 4 4)]) (Ctr [P 0 0; P 4 0; P 4 4; P 0 4]) = Ok COMPOSITE.
Proof. vm_compute. reflexivity. Qed.
Example doc_multisegment_in_contour_6 :
    multisegment_in_contour (MSeg [Seg (P 0 0) (P 4 0); Seg (P 0 0) (P 0 4); Seg (P 4 0) (P 4
    4); Seg (P 0 4) (P 4 4)]) (Ctr [P 0 0; P 4 0; P 4 4; P 0 4]) = Ok EQUAL.
Proof. vm_compute. reflexivity. Qed.
Example doc_multisegment_in_contour_7 :
    multisegment_in_contour (MSeg [Seg (P 0 0) (P 0 4); Seg (P 4 0) (P 4 4); Seg (P 0 4) (P 4
    4)]) (Ctr [P 0 0; P 4 0; P 4 4; P 0 4]) = Ok COMPONENT.
Proof. vm_compute. reflexivity. Qed.
Example doc_contour_in_contour_1 :
    contour_in_contour (Ctr [P 0 0; P 1 0; P 0 1]) (Ctr [P 0 0; P 1 0; P 0 1]) = Ok EQUAL.
Proof. vm_compute. reflexivity. Qed.
Example doc_contour_in_contour_2 :
    contour_in_contour (Ctr [P 0 0; P 1 0; P 0 1]) (Ctr [P 0 0; P 1 0; P 1 1; P 0 1]) = Ok
    OVERLAP.
Proof. vm_compute. reflexivity. Qed.
Example doc_contour_in_contour_3 :
    contour_in_contour (Ctr [P 0 0; P 1 0; P 1 1; P 0 1]) (Ctr [P 0 0; P 1 0; P 0 1]) = Ok
    OVERLAP.
Proof. vm_compute. reflexivity. Qed.
Example doc_contour_in_contour_4 :
    contour_in_contour (Ctr [P 0 0; P 1 0; P 1 1; P 0 1]) (Ctr [P 0 0; P 1 0; P 1 1; P 0 1]) =
    Ok EQUAL.
Proof. vm_compute. reflexivity. Qed.
Example doc_point_in_region_1 :
    point_in_region (P 0 0) (Ctr [P 0 0; P 2 0; P 2 2; P 0 2]) = BOUNDARY.
Proof. vm_compute. reflexivity. Qed.
Example doc_point_in_region_2 :
    point_in_region (P 1 1) (Ctr [P 0 0; P 2 0; P 2 2; P 0 2]) = INTERIOR.
Proof. vm_compute. reflexivity. Qed.
Example doc_point_in_region_3 :
    point_in_region (P 2 2) (Ctr [P 0 0; P 2 0; P 2 2; P 0 2]) = BOUNDARY.
Proof. vm_compute. reflexivity. Qed.
Example doc_point_in_region_4 :
    point_in_region (P 3 3) (Ctr [P 0 0; P 2 0; P 2 2; P 0 2]) = EXTERIOR.
Proof. vm_compute. reflexivity. Qed.
Example doc_segment_in_region_1 :
    segment_in_region (Seg (P 0 0) (P 1 0)) (Ctr [P 0 0; P 3 0; P 3 3; P 0 3]) = Ok COMPONENT.
Proof. vm_compute. reflexivity. Qed.
Example doc_segment_in_region_2 :
    segment_in_region (Seg (P 0 0) (P 3 0)) (Ctr [P 0 0; P 3 0; P 3 3; P 0 3]) = Ok COMPONENT.
Proof. vm_compute. reflexivity. Qed.
Example doc_segment_in_region_3 :
    segment_in_region (Seg (P 2 0) (P 4 0)) (Ctr [P 0 0; P 3 0; P 3 3; P 0 3]) = Ok TOUCH.
Proof. vm_compute. reflexivity. Qed.
Example doc_segment_in_region_4 :
    segment_in_region (Seg (P 4 0) (P 5 0)) (Ctr [P 0 0; P 3 0; P 3 3; P 0 3]) = Ok DISJOINT.
Proof. vm_compute. reflexivity. Qed.
Example doc_segment_in_region_5 :
    segment_in_region (Seg (P 1 0) (P 1 2)) (Ctr [P 0 0; P 3 0; P 3 3; P 0 3]) = Ok ENCLOSED.
Proof. vm_compute. reflexivity. Qed.
Example doc_segment_in_region_6 :
    segment_in_region (Seg (P 0 0) (P 1 1)) (Ctr [P 0 0; P 3 0; P 3 3; P 0 3]) = Ok ENCLOSED.
Proof. vm_compute. reflexivity. Qed.
Example doc_segment_in_region_7 :
    segment_in_region (Seg (P 1 1) (P 2 2)) (Ctr [P 0 0; P 3 0; P 3 3; P 0 3]) = Ok WITHIN.
Proof. vm_compute. reflexivity. Qed.
Example doc_segment_in_region_8 :
    segment_in_region (Seg (P 2 2) (P 4 4)) (Ctr [P 0 0; P 3 0; P 3 3; P 0 3]) = Ok CROSS.
Proof. vm_compute. reflexivity. Qed.
Example doc_multisegment_in_region_1 :
    multisegment_in_region (MSeg [Seg (P 0 0) (P 4 0); Seg (P 0 0) (P 0 4); Seg (P 4 0) (P 4 4);
    Seg (P 0 4) (P 4 4)]) (Ctr [P 1 1; P 3 1; P 3 3; P 1 3]) = Ok DISJOINT.
Proof. vm_compute. reflexivity. Qed.
Example doc_multisegment_in_region_2 :
    multisegment_in_region (MSeg [Seg (P 0 0) (P 4 0); Seg (P 0 0) (P 0 4); Seg (P 4 0) (P 4 4);
    Seg (P 0 4) (P 4 4); Seg (P 1 1) (P 3 1); Seg (P 1 3) (P 1 1); Seg (P 3 1) (P 3 3); Seg (P 1
    3) (P 3 3)]) (Ctr [P 1 1; P 3 1; P 3 3; P 1 3]) = Ok TOUCH.
Proof. vm_compute. reflexivity. Qed.
Example doc_multisegment_in_region_3 :
    multisegment_in_region (MSeg [Seg (P 0 0) (P 2 2); Seg (P 2 2) (P 4 0); Seg (P 2 2) (P 4 4);
    Seg (P 0 4) (P 2 2)]) (Ctr [P 1 1; P 3 1; P 3 3; P 1 3]) = Ok CROSS.
Proof. vm_compute. reflexivity. Qed.
Example doc_multisegment_in_region_4 :
    multisegment_in_region (MSeg [Seg (P 0 0) (P 4 0); Seg (P 0 0) (P 0 4); Seg (P 4 0) (P 4 4);
    Seg (P 0 4) (P 4 4)]) (Ctr [P 0 0; P 4 0; P 4 4; P 0 4]) = Ok COMPONENT.
Proof. vm_compute. reflexivity. Qed.
Example doc_multisegment_in_region_5 :
    multisegment_in_region (MSeg [Seg (P 0 0) (P 4 0); Seg (P 0 0) (P 0 4); Seg (P 4 0) (P 4 4);
    Seg (P 0 4) (P 4 4); Seg (P 1 1) (P 3 1); Seg (P 1 3) (P 1 1); Seg (P 3 1) (P 3 3); Seg (P 1
    3) (P 3 3)]) (Ctr [P 0 0; P 4 0; P 4 4; P 0 4]) = Ok ENCLOSED.
Proof. vm_compute. reflexivity. Qed.
Example doc_multisegment_in_region_6 :
    multisegment_in_region (MSeg [Seg (P 1 1) (P 3 1); Seg (P 1 3) (P 1 1); Seg (P 3 1) (P 3 3);
    Seg (P 1 3) (P 3 3)]) (Ctr [P 0 0; P 4 0; P 4 4; P 0 4]) = Ok WITHIN.
Proof. vm_compute. reflexivity. Qed.
Example doc_contour_in_region_1 :
    contour_in_region (Ctr [P 0 0; P 4 0; P 4 4; P 0 4]) (Ctr [P 1 1; P 3 1; P 3 3; P 1 3]) = Ok
    DISJOINT.
Proof. vm_compute. reflexivity. Qed.
Example doc_contour_in_region_2 :
    contour_in_region (Ctr [P 0 0; P 4 0; P 4 4; P 0 4]) (Ctr [P 0 0; P 4 0; P 0 4]) = Ok TOUCH.
Proof. vm_compute. reflexivity. Qed.
Example doc_contour_in_region_3 :
    contour_in_region (Ctr [P 1 1; P 3 1; P 3 3; P 1 3]) (Ctr [P 0 0; P 4 0; P 0 4]) = Ok CROSS.
Proof. vm_compute. reflexivity. Qed.
Example doc_contour_in_region_4 :
    contour_in_region (Ctr [P 0 0; P 4 0; P 4 4; P 0 4]) (Ctr [P 0 0; P 4 0; P 4 4; P 0 4]) = Ok
    COMPONENT.
Proof. vm_compute. reflexivity. Qed.
Example doc_contour_in_region_5 :
    contour_in_region (Ctr [P 0 0; P 4 0; P 0 4]) (Ctr [P 0 0; P 4 0; P 4 4; P 0 4]) = Ok
    ENCLOSED.
Proof. vm_compute. reflexivity. Qed.
Example doc_contour_in_region_6 :
    contour_in_region (Ctr [P 1 1; P 3 1; P 3 3; P 1 3]) (Ctr [P 0 0; P 4 0; P 4 4; P 0 4]) = Ok
    WITHIN.
Proof. vm_compute. reflexivity. Qed.
Example doc_region_in_region_1 :
    region_in_region (Ctr [P 1 1; P 3 1; P 3 3; P 1 3]) (Ctr [P 4 0; P 8 0; P 8 4; P 4 4]) = Ok
    DISJOINT.
Proof. vm_compute. reflexivity. Qed.
Example doc_region_in_region_2 :
    region_in_region (Ctr [P 0 0; P 4 0; P 4 4; P 0 4]) (Ctr [P 4 0; P 8 0; P 8 4; P 4 4]) = Ok
    TOUCH.
Proof. vm_compute. reflexivity. Qed.
Example doc_region_in_region_3 :
    region_in_region (Ctr [P 1 1; P 3 1; P 3 3; P 1 3]) (Ctr [P 0 0; P 4 0; P 0 4]) = Ok
    OVERLAP.
Proof. vm_compute. reflexivity. Qed.
Example doc_region_in_region_4 :
    region_in_region (Ctr [P 0 0; P 4 0; P 4 4; P 0 4]) (Ctr [P 1 1; P 3 1; P 3 3; P 1 3]) = Ok
    COVER.
Proof. vm_compute. reflexivity. Qed.
Example doc_region_in_region_5 :
    region_in_region (Ctr [P 0 0; P 4 0; P 4 4; P 0 4]) (Ctr [P 0 0; P 4 0; P 0 4]) = Ok
    ENCLOSES.
Proof. vm_compute. reflexivity. Qed.
Example doc_region_in_region_6 :
    region_in_region (Ctr [P 0 0; P 4 0; P 4 4; P 0 4]) (Ctr [P 0 0; P 4 0; P 4 4; P 0 4]) = Ok
    EQUAL.
Proof. vm_compute. reflexivity. Qed.
Example doc_region_in_region_7 :
    region_in_region (Ctr [P 0 0; P 4 0; P 0 4]) (Ctr [P 0 0; P 4 0; P 4 4; P 0 4]) = Ok
    ENCLOSED.
Proof. vm_compute. reflexivity. Qed.
Example doc_region_in_region_8 :
    region_in_region (Ctr [P 1 1; P 3 1; P 3 3; P 1 3]) (Ctr [P 0 0; P 4 0; P 4 4; P 0 4]) = Ok
    WITHIN.
Proof. vm_compute. reflexivity. Qed.
Example doc_point_in_multiregion_1 :
    point_in_multiregion (P 0 0) [Ctr [P 0 0; P 2 0; P 0 2]] = BOUNDARY.
Proof. vm_compute. reflexivity. Qed.
Example doc_point_in_multiregion_2 :
    point_in_multiregion (P 0 0) [Ctr [P 0 0; P 2 0; P 2 2; P 0 2]] = BOUNDARY.
Proof. vm_compute. reflexivity. Qed.
Example doc_point_in_multiregion_3 :
    point_in_multiregion (P 1 1) [Ctr [P 0 0; P 2 0; P 0 2]] = BOUNDARY.
Proof. vm_compute. reflexivity. Qed.
Example doc_point_in_multiregion_4 :
    point_in_multiregion (P 1 1) [Ctr [P 0 0; P 2 0; P 2 2; P 0 2]] = INTERIOR.
Proof. vm_compute. reflexivity. Qed.
Example doc_point_in_multiregion_5 :
    point_in_multiregion (P 2 2) [Ctr [P 0 0; P 2 0; P 0 2]] = EXTERIOR.
Proof. vm_compute. reflexivity. Qed.
Example doc_point_in_multiregion_6 :
    point_in_multiregion (P 2 2) [Ctr [P 0 0; P 2 0; P 2 2; P 0 2]] = BOUNDARY.
Proof. vm_compute. reflexivity. Qed.
Example doc_segment_in_multiregion_1 :
    segment_in_multiregion (Seg (P 0 0) (P 1 0)) [] = Ok DISJOINT.
Proof. vm_compute. reflexivity. Qed.
Example doc_segment_in_multiregion_2 :
    segment_in_multiregion (Seg (P 0 0) (P 1 0)) [Ctr [P 0 0; P 3 0; P 3 3; P 0 3]] = Ok
    COMPONENT.
Proof. vm_compute. reflexivity. Qed.
Example doc_segment_in_multiregion_3 :
    segment_in_multiregion (Seg (P 0 0) (P 3 0)) [Ctr [P 0 0; P 3 0; P 3 3; P 0 3]] = Ok
    COMPONENT.
Proof. vm_compute. reflexivity. Qed.
Example doc_segment_in_multiregion_4 :
    segment_in_multiregion (Seg (P 2 0) (P 4 0)) [Ctr [P 0 0; P 3 0; P 3 3; P 0 3]] = Ok TOUCH.
Proof. vm_compute. reflexivity. Qed.
Example doc_segment_in_multiregion_5 :
    segment_in_multiregion (Seg (P 4 0) (P 5 0)) [Ctr [P 0 0; P 3 0; P 3 3; P 0 3]] = Ok
    DISJOINT.
Proof. vm_compute. reflexivity. Qed.
Example doc_segment_in_multiregion_6 :
    segment_in_multiregion (Seg (P 1 0) (P 1 2)) [Ctr [P 0 0; P 3 0; P 3 3; P 0 3]] = Ok
    ENCLOSED.
Proof. vm_compute. reflexivity. Qed.
Example doc_segment_in_multiregion_7 :
    segment_in_multiregion (Seg (P 0 0) (P 1 1)) [Ctr [P 0 0; P 3 0; P 3 3; P 0 3]] = Ok
    ENCLOSED.
Proof. vm_compute. reflexivity. Qed.
Example doc_segment_in_multiregion_8 :
    segment_in_multiregion (Seg (P 1 1) (P 2 2)) [Ctr [P 0 0; P 3 0; P 3 3; P 0 3]] = Ok WITHIN.
Proof. vm_compute. reflexivity. Qed.
Example doc_segment_in_multiregion_9 :
    segment_in_multiregion (Seg (P 2 2) (P 4 4)) [Ctr [P 0 0; P 3 0; P 3 3; P 0 3]] = Ok CROSS.
Proof. vm_compute. reflexivity. Qed.
Example doc_multisegment_in_multiregion_1 :
    multisegment_in_multiregion (MSeg [Seg (P 0 0) (P 4 0); Seg (P 0 0) (P 0 4); Seg (P 4 0) (P
    4 4); Seg (P 0 4) (P 4 4)]) [Ctr [P 1 1; P 3 1; P 3 3; P 1 3]; Ctr [P 5 5; P 7 5; P 7 7; P 5
    7]] = Ok DISJOINT.
Proof. vm_compute. reflexivity. Qed.
Example doc_multisegment_in_multiregion_2 :
    multisegment_in_multiregion (MSeg [Seg (P 0 0) (P 4 0); Seg (P 0 0) (P 0 4); Seg (P 4 0) (P
    4 4); Seg (P 0 4) (P 4 4); Seg (P 1 1) (P 3 1); Seg (P 1 3) (P 1 1); Seg (P 3 1) (P 3 3);
    Seg (P 1 3) (P 3 3)]) [Ctr [P 1 1; P 3 1; P 3 3; P 1 3]; Ctr [P 5 5; P 7 5; P 7 7; P 5 7]] =
    Ok TOUCH.
Proof. vm_compute. reflexivity. Qed.
Example doc_multisegment_in_multiregion_3 :
    multisegment_in_multiregion (MSeg [Seg (P 0 0) (P 2 2); Seg (P 2 2) (P 4 0); Seg (P 2 2) (P
    4 4); Seg (P 0 4) (P 2 2)]) [Ctr [P 1 1; P 3 1; P 3 3; P 1 3]; Ctr [P 5 5; P 7 5; P 7 7; P 5
    7]] = Ok CROSS.
Proof. vm_compute. reflexivity. Qed.
Example doc_multisegment_in_multiregion_4 :
    multisegment_in_multiregion (MSeg [Seg (P 0 0) (P 4 0); Seg (P 0 0) (P 0 4); Seg (P 4 0) (P
    4 4); Seg (P 0 4) (P 4 4)]) [Ctr [P 0 0; P 4 0; P 4 4; P 0 4]; Ctr [P 4 4; P 8 4; P 8 8; P 4
    8]] = Ok COMPONENT.
Proof. vm_compute. reflexivity. Qed.
Example doc_multisegment_in_multiregion_5 :
    multisegment_in_multiregion (MSeg [Seg (P 1 1) (P 3 1); Seg (P 1 3) (P 1 1); Seg (P 3 1) (P
    3 3); Seg (P 1 3) (P 3 3)]) [Ctr [P 0 0; P 4 0; P 4 4; P 0 4]; Ctr [P 4 4; P 8 4; P 8 8; P 4
    8]] = Ok WITHIN.
Proof. vm_compute. reflexivity. Qed.
Example doc_contour_in_multiregion_1 :
    contour_in_multiregion (Ctr [P 0 0; P 4 0; P 4 4; P 0 4]) [Ctr [P 1 1; P 3 1; P 3 3; P 1 3];
    Ctr [P 5 1; P 7 1; P 7 3; P 5 3]] = Ok DISJOINT.
Proof. vm_compute. reflexivity. Qed.
Example doc_contour_in_multiregion_2 :
    contour_in_multiregion (Ctr [P 4 0; P 8 0; P 8 4; P 4 4]) [Ctr [P 0 0; P 4 0; P 4 4; P 0 4];
    Ctr [P 4 4; P 8 4; P 8 8; P 4 8]] = Ok TOUCH.
Proof. vm_compute. reflexivity. Qed.
Example doc_contour_in_multiregion_3 :
    contour_in_multiregion (Ctr [P 1 1; P 3 1; P 3 3; P 1 3]) [Ctr [P 0 0; P 4 0; P 0 4]; Ctr [P
    4 0; P 8 0; P 8 4; P 4 4]] = Ok CROSS.
Proof. vm_compute. reflexivity. Qed.
Example doc_contour_in_multiregion_4 :
    contour_in_multiregion (Ctr [P 0 0; P 4 0; P 4 4; P 0 4]) [Ctr [P 0 0; P 4 0; P 4 4; P 0 4];
    Ctr [P 4 4; P 8 4; P 8 8; P 4 8]] = Ok COMPONENT.
Proof. vm_compute. reflexivity. Qed.
Example doc_contour_in_multiregion_5 :
    contour_in_multiregion (Ctr [P 0 0; P 4 0; P 0 4]) [Ctr [P 0 0; P 4 0; P 4 4; P 0 4]; Ctr [P
    4 4; P 8 4; P 8 8; P 4 8]] = Ok ENCLOSED.
Proof. vm_compute. reflexivity. Qed.
Example doc_contour_in_multiregion_6 :
    contour_in_multiregion (Ctr [P 1 1; P 3 1; P 3 3; P 1 3]) [Ctr [P 0 0; P 4 0; P 4 4; P 0 4];
    Ctr [P 4 4; P 8 4; P 8 8; P 4 8]] = Ok WITHIN.
Proof. vm_compute. reflexivity. Qed.
Example doc_region_in_multiregion_1 :
    region_in_multiregion (Ctr [P 4 4; P 8 4; P 8 8; P 4 8]) [Ctr [P 1 1; P 3 1; P 3 3; P 1 3];
    Ctr [P 5 1; P 7 1; P 7 3; P 5 3]] = Ok DISJOINT.
Proof. vm_compute. reflexivity. Qed.
Example doc_region_in_multiregion_2 :
    region_in_multiregion (Ctr [P 4 0; P 8 0; P 8 4; P 4 4]) [Ctr [P 0 0; P 4 0; P 4 4; P 0 4];
    Ctr [P 4 4; P 8 4; P 8 8; P 4 8]] = Ok TOUCH.
Proof. vm_compute. reflexivity. Qed.
Example doc_region_in_multiregion_3 :
    region_in_multiregion (Ctr [P 0 0; P 4 0; P 4 4; P 0 4]) [Ctr [P 1 1; P 3 1; P 3 3; P 1 3];
    Ctr [P 5 1; P 7 1; P 7 3; P 5 3]] = Ok OVERLAP.
Proof. vm_compute. reflexivity. Qed.
Example doc_region_in_multiregion_4 :
    region_in_multiregion (Ctr [P 0 0; P 8 0; P 8 8; P 0 8]) [Ctr [P 1 1; P 3 1; P 3 3; P 1 3];
    Ctr [P 5 1; P 7 1; P 7 3; P 5 3]] = Ok COVER.
Proof. vm_compute. reflexivity. Qed.
Example doc_region_in_multiregion_5 :
    region_in_multiregion (Ctr [P 0 0; P 8 0; P 8 8; P 0 8]) [Ctr [P 0 0; P 4 0; P 4 4; P 0 4];
    Ctr [P 4 4; P 8 4; P 8 8; P 4 8]] = Ok ENCLOSES.
Proof. vm_compute. reflexivity. Qed.
Example doc_region_in_multiregion_6 :
    region_in_multiregion (Ctr [P 0 0; P 4 0; P 0 4]) [Ctr [P 0 0; P 4 0; P 4 4; P 0 4]; Ctr [P
    4 4; P 8 4; P 8 8; P 4 8]] = Ok ENCLOSED.
Proof. vm_compute. reflexivity. Qed.
Example doc_region_in_multiregion_7 :
    region_in_multiregion (Ctr [P 1 1; P 3 1; P 3 3; P 1 3]) [Ctr [P 0 0; P 4 0; P 4 4; P 0 4];
    Ctr [P 4 4; P 8 4; P 8 8; P 4 8]] = Ok WITHIN.
Proof. vm_compute. reflexivity. Qed.
Example doc_multiregion_in_multiregion_1 :
    multiregion_in_multiregion [Ctr [P 1 1; P 3 1; P 3 3; P 1 3]; Ctr [P 5 5; P 7 5; P 7 7; P 5
    7]] [Ctr [P 4 0; P 8 0; P 8 4; P 4 4]; Ctr [P 0 4; P 4 4; P 4 8; P 0 8]] = Ok DISJOINT.
Proof. vm_compute. reflexivity. Qed.
Example doc_multiregion_in_multiregion_2 :
    multiregion_in_multiregion [Ctr [P 0 0; P 4 0; P 4 4; P 0 4]; Ctr [P 4 4; P 8 4; P 8 8; P 4
    8]] [Ctr [P 4 0; P 8 0; P 8 4; P 4 4]; Ctr [P 0 4; P 4 4; P 4 8; P 0 8]] = Ok TOUCH.
Proof. vm_compute. reflexivity. Qed.
Example doc_multiregion_in_multiregion_3 :
    multiregion_in_multiregion [Ctr [P 0 0; P 4 0; P 4 4; P 0 4]; Ctr [P 5 5; P 7 5; P 7 7; P 5
    7]] [Ctr [P 1 1; P 3 1; P 3 3; P 1 3]; Ctr [P 4 4; P 8 4; P 8 8; P 4 8]] = Ok OVERLAP.
Proof. vm_compute. reflexivity. Qed.
Example doc_multiregion_in_multiregion_4 :
    multiregion_in_multiregion [Ctr [P 0 0; P 4 0; P 4 4; P 0 4]; Ctr [P 4 4; P 8 4; P 8 8; P 4
    8]] [Ctr [P 1 1; P 3 1; P 3 3; P 1 3]; Ctr [P 5 5; P 7 5; P 7 7; P 5 7]] = Ok COVER.
Proof. vm_compute. reflexivity. Qed.
Example doc_multiregion_in_multiregion_5 :
    multiregion_in_multiregion [Ctr [P 0 0; P 4 0; P 4 4; P 0 4]; Ctr [P 4 4; P 8 4; P 8 8; P 4
    8]] [Ctr [P 0 0; P 4 0; P 4 4; P 0 4]; Ctr [P 5 5; P 7 5; P 7 7; P 5 7]] = Ok ENCLOSES.
Proof. vm_compute. reflexivity. Qed.
Example doc_multiregion_in_multiregion_6 :
    multiregion_in_multiregion [Ctr [P 1 1; P 3 1; P 3 3; P 1 3]; Ctr [P 5 1; P 7 1; P 7 3; P 5
    3]; Ctr [P 5 5; P 7 5; P 7 7; P 5 7]] [Ctr [P 1 1; P 3 1; P 3 3; P 1 3]; Ctr [P 5 1; P 7 1;
    P 7 3; P 5 3]] = Ok COMPOSITE.
Proof. vm_compute. reflexivity. Qed.
Example doc_multiregion_in_multiregion_7 :
    multiregion_in_multiregion [Ctr [P 0 0; P 4 0; P 4 4; P 0 4]; Ctr [P 4 4; P 8 4; P 8 8; P 4
    8]] [Ctr [P 0 0; P 4 0; P 4 4; P 0 4]; Ctr [P 4 4; P 8 4; P 8 8; P 4 8]] = Ok EQUAL.
Proof. vm_compute. reflexivity. Qed.
Example doc_multiregion_in_multiregion_8 :
    multiregion_in_multiregion [Ctr [P 1 1; P 3 1; P 3 3; P 1 3]; Ctr [P 5 1; P 7 1; P 7 3; P 5
    3]] [Ctr [P 1 1; P 3 1; P 3 3; P 1 3]; Ctr [P 5 1; P 7 1; P 7 3; P 5 3]; Ctr [P 5 5; P 7 5;
    P 7 7; P 5 7]] = Ok COMPONENT.
Proof. vm_compute. reflexivity. Qed.
Example doc_multiregion_in_multiregion_9 :
    multiregion_in_multiregion [Ctr [P 0 0; P 4 0; P 4 4; P 0 4]; Ctr [P 5 5; P 7 5; P 7 7; P 5
    7]] [Ctr [P 0 0; P 4 0; P 4 4; P 0 4]; Ctr [P 4 4; P 8 4; P 8 8; P 4 8]] = Ok ENCLOSED.
Proof. vm_compute. reflexivity. Qed.
Example doc_multiregion_in_multiregion_10 :
    multiregion_in_multiregion [Ctr [P 1 1; P 3 1; P 3 3; P 1 3]; Ctr [P 5 5; P 7 5; P 7 7; P 5
    7]] [Ctr [P 0 0; P 4 0; P 4 4; P 0 4]; Ctr [P 4 4; P 8 4; P 8 8; P 4 8]] = Ok WITHIN.
Proof. vm_compute. reflexivity. Qed.
Example doc_point_in_polygon_1 :
    point_in_polygon (P 0 0) (Poly (Ctr [P 1 1; P 3 1; P 3 3; P 1 3]) []) = EXTERIOR.
Proof. vm_compute. reflexivity. Qed.
Example doc_point_in_polygon_2 :
    point_in_polygon (P 0 0) (Poly (Ctr [P 0 0; P 4 0; P 4 4; P 0 4]) []) = BOUNDARY.
Proof. vm_compute. reflexivity. Qed.
Example doc_point_in_polygon_3 :
    point_in_polygon (P 1 1) (Poly (Ctr [P 1 1; P 3 1; P 3 3; P 1 3]) []) = BOUNDARY.
Proof. vm_compute. reflexivity. Qed.
Example doc_point_in_polygon_4 :
    point_in_polygon (P 1 1) (Poly (Ctr [P 0 0; P 4 0; P 4 4; P 0 4]) []) = INTERIOR.
Proof. vm_compute. reflexivity. Qed.
Example doc_point_in_polygon_5 :
    point_in_polygon (P 2 2) (Poly (Ctr [P 0 0; P 4 0; P 4 4; P 0 4]) []) = INTERIOR.
Proof. vm_compute. reflexivity. Qed.
Example doc_point_in_polygon_6 :
    point_in_polygon (P 2 2) (Poly (Ctr [P 0 0; P 4 0; P 4 4; P 0 4]) [Ctr [P 1 1; P 3 1; P 3 3;
    P 1 3]]) = EXTERIOR.
Proof. vm_compute. reflexivity. Qed.
Example doc_segment_in_polygon_1 :
    segment_in_polygon (Seg (P 0 0) (P 1 0)) (Poly (Ctr [P 0 0; P 4 0; P 4 4; P 0 4]) []) = Ok
    COMPONENT.
Proof. vm_compute. reflexivity. Qed.
Example doc_segment_in_polygon_2 :
    segment_in_polygon (Seg (P 0 0) (P 1 0)) (Poly (Ctr [P 0 0; P 4 0; P 4 4; P 0 4]) [Ctr [P 1
    1; P 3 1; P 3 3; P 1 3]]) = Ok COMPONENT.
Proof. vm_compute. reflexivity. Qed.
Example doc_segment_in_polygon_3 :
    segment_in_polygon (Seg (P 0 0) (P 2 2)) (Poly (Ctr [P 0 0; P 4 0; P 4 4; P 0 4]) []) = Ok
    ENCLOSED.
Proof. vm_compute. reflexivity. Qed.
Example doc_segment_in_polygon_4 :
    segment_in_polygon (Seg (P 0 0) (P 2 2)) (Poly (Ctr [P 0 0; P 4 0; P 4 4; P 0 4]) [Ctr [P 1
    1; P 3 1; P 3 3; P 1 3]]) = Ok CROSS.
Proof. vm_compute. reflexivity. Qed.
Example doc_segment_in_polygon_5 :
    segment_in_polygon (Seg (P 1 1) (P 3 3)) (Poly (Ctr [P 0 0; P 4 0; P 4 4; P 0 4]) []) = Ok
    WITHIN.
Proof. vm_compute. reflexivity. Qed.
Example doc_segment_in_polygon_6 :
    segment_in_polygon (Seg (P 1 1) (P 3 3)) (Poly (Ctr [P 0 0; P 4 0; P 4 4; P 0 4]) [Ctr [P 1
    1; P 3 1; P 3 3; P 1 3]]) = Ok TOUCH.
Proof. vm_compute. reflexivity. Qed.
Example doc_segment_in_polygon_7 :
    segment_in_polygon (Seg (P 0 0) (P 4 4)) (Poly (Ctr [P 0 0; P 4 0; P 4 4; P 0 4]) []) = Ok
    ENCLOSED.
Proof. vm_compute. reflexivity. Qed.
Example doc_segment_in_polygon_8 :
    segment_in_polygon (Seg (P 0 0) (P 4 4)) (Poly (Ctr [P 0 0; P 4 0; P 4 4; P 0 4]) [Ctr [P 1
    1; P 3 1; P 3 3; P 1 3]]) = Ok CROSS.
Proof. vm_compute. reflexivity. Qed.
Example doc_multisegment_in_polygon_1 :
    multisegment_in_polygon (MSeg [Seg (P 0 0) (P 4 0); Seg (P 0 0) (P 0 4); Seg (P 4 0) (P 4
    4); Seg (P 0 4) (P 4 4)]) (Poly (Ctr [P 1 1; P 3 1; P 3 3; P 1 3]) []) = Ok DISJOINT.
Proof. vm_compute. reflexivity. Qed.
Example doc_multisegment_in_polygon_2 :
    multisegment_in_polygon (MSeg [Seg (P 0 0) (P 4 0); Seg (P 0 0) (P 0 4); Seg (P 4 0) (P 4
    4); Seg (P 0 4) (P 4 4); Seg (P 1 1) (P 3 1); Seg (P 1 3) (P 1 1); Seg (P 3 1) (P 3 3); Seg
    (P 1 3) (P 3 3)]) (Poly (Ctr [P 1 1; P 3 1; P 3 3; P 1 3]) []) = Ok TOUCH.
Proof. vm_compute. reflexivity. Qed.
Example doc_multisegment_in_polygon_3 :
    multisegment_in_polygon (MSeg [Seg (P 0 0) (P 2 2); Seg (P 2 2) (P 4 0); Seg (P 2 2) (P 4
    4); Seg (P 0 4) (P 2 2)]) (Poly (Ctr [P 1 1; P 3 1; P 3 3; P 1 3]) []) = Ok CROSS.
Proof. vm_compute. reflexivity. Qed.
Example doc_multisegment_in_polygon_4 :
    multisegment_in_polygon (MSeg [Seg (P 0 0) (P 4 0); Seg (P 0 0) (P 0 4); Seg (P 4 0) (P 4
    4); Seg (P 0 4) (P 4 4)]) (Poly (Ctr [P 0 0; P 4 0; P 4 4; P 0 4]) []) = Ok COMPONENT.
Proof. vm_compute. reflexivity. Qed.
Example doc_multisegment_in_polygon_5 :
    multisegment_in_polygon (MSeg [Seg (P 0 0) (P 4 0); Seg (P 0 0) (P 0 4); Seg (P 4 0) (P 4
    4); Seg (P 0 4) (P 4 4); Seg (P 1 1) (P 3 1); Seg (P 1 3) (P 1 1); Seg (P 3 1) (P 3 3); Seg
    (P 1 3) (P 3 3)]) (Poly (Ctr [P 0 0; P 4 0; P 4 4; P 0 4]) []) = Ok ENCLOSED.
Proof. vm_compute. reflexivity. Qed.
Example doc_multisegment_in_polygon_6 :
    multisegment_in_polygon (MSeg [Seg (P 1 1) (P 3 1); Seg (P 1 3) (P 1 1); Seg (P 3 1) (P 3
    3); Seg (P 1 3) (P 3 3)]) (Poly (Ctr [P 0 0; P 4 0; P 4 4; P 0 4]) []) = Ok WITHIN.
Proof. vm_compute. reflexivity. Qed.
Example doc_contour_in_polygon_1 :
    contour_in_polygon (Ctr [P 0 0; P 4 0; P 4 4; P 0 4]) (Poly (Ctr [P 1 1; P 3 1; P 3 3; P 1
    3]) []) = Ok DISJOINT.
Proof. vm_compute. reflexivity. Qed.
Example doc_contour_in_polygon_2 :
    contour_in_polygon (Ctr [P 0 0; P 4 0; P 4 4; P 0 4]) (Poly (Ctr [P 0 0; P 4 0; P 0 4]) [])
    = Ok TOUCH.
Proof. vm_compute. reflexivity. Qed.
Example doc_contour_in_polygon_3 :
    contour_in_polygon (Ctr [P 1 1; P 3 1; P 3 3; P 1 3]) (Poly (Ctr [P 0 0; P 4 0; P 0 4]) [])
    = Ok CROSS.
Proof. vm_compute. reflexivity. Qed.
Example doc_contour_in_polygon_4 :
    contour_in_polygon (Ctr [P 0 0; P 4 0; P 4 4; P 0 4]) (Poly (Ctr [P 0 0; P 4 0; P 4 4; P 0
    4]) []) = Ok COMPONENT.
Proof. vm_compute. reflexivity. Qed.
Example doc_contour_in_polygon_5 :
    contour_in_polygon (Ctr [P 0 0; P 4 0; P 0 4]) (Poly (Ctr [P 0 0; P 4 0; P 4 4; P 0 4]) [])
    = Ok ENCLOSED.
Proof. vm_compute. reflexivity. Qed.
Example doc_contour_in_polygon_6 :
    contour_in_polygon (Ctr [P 1 1; P 3 1; P 3 3; P 1 3]) (Poly (Ctr [P 0 0; P 4 0; P 4 4; P 0
    4]) []) = Ok WITHIN.
Proof. vm_compute. reflexivity. Qed.
Example doc_region_in_polygon_1 :
    region_in_polygon (Ctr [P 1 1; P 3 1; P 3 3; P 1 3]) (Poly (Ctr [P 4 0; P 8 0; P 8 4; P 4
    4]) []) = Ok DISJOINT.
Proof. vm_compute. reflexivity. Qed.
Example doc_region_in_polygon_2 :
    region_in_polygon (Ctr [P 0 0; P 4 0; P 4 4; P 0 4]) (Poly (Ctr [P 4 0; P 8 0; P 8 4; P 4
    4]) []) = Ok TOUCH.
Proof. vm_compute. reflexivity. Qed.
Example doc_region_in_polygon_3 :
    region_in_polygon (Ctr [P 1 1; P 3 1; P 3 3; P 1 3]) (Poly (Ctr [P 0 0; P 4 0; P 0 4]) []) =
    Ok OVERLAP.
Proof. vm_compute. reflexivity. Qed.
Example doc_region_in_polygon_4 :
    region_in_polygon (Ctr [P 0 0; P 4 0; P 4 4; P 0 4]) (Poly (Ctr [P 1 1; P 3 1; P 3 3; P 1
    3]) []) = Ok COVER.
Proof. vm_compute. reflexivity. Qed.
Example doc_region_in_polygon_5 :
    region_in_polygon (Ctr [P 0 0; P 4 0; P 4 4; P 0 4]) (Poly (Ctr [P 0 0; P 4 0; P 0 4]) []) =
    Ok ENCLOSES.
Proof. vm_compute. reflexivity. Qed.
Example doc_region_in_polygon_6 :
    region_in_polygon (Ctr [P 0 0; P 4 0; P 4 4; P 0 4]) (Poly (Ctr [P 0 0; P 4 0; P 4 4; P 0
    4]) []) = Ok EQUAL.
Proof. vm_compute. reflexivity. Qed.
Example doc_region_in_polygon_7 :
    region_in_polygon (Ctr [P 0 0; P 4 0; P 0 4]) (Poly (Ctr [P 0 0; P 4 0; P 4 4; P 0 4]) []) =
    Ok ENCLOSED.
Proof. vm_compute. reflexivity. Qed.
Example doc_region_in_polygon_8 :
    region_in_polygon (Ctr [P 1 1; P 3 1; P 3 3; P 1 3]) (Poly (Ctr [P 0 0; P 4 0; P 4 4; P 0
    4]) []) = Ok WITHIN.
Proof. vm_compute. reflexivity. Qed.
Example doc_multiregion_in_polygon_1 :
    multiregion_in_polygon [Ctr [P 0 0; P 4 0; P 4 4; P 0 4]; Ctr [P 4 4; P 8 4; P 8 8; P 4 8]]
    (Poly (Ctr [P 5 1; P 7 1; P 7 3; P 5 3]) []) = Ok DISJOINT.
Proof. vm_compute. reflexivity. Qed.
Example doc_multiregion_in_polygon_2 :
    multiregion_in_polygon [Ctr [P 1 1; P 3 1; P 3 3; P 1 3]; Ctr [P 5 1; P 7 1; P 7 3; P 5 3]]
    (Poly (Ctr [P 0 0; P 4 0; P 4 4; P 0 4]) [Ctr [P 1 1; P 3 1; P 3 3; P 1 3]]) = Ok TOUCH.
Proof. vm_compute. reflexivity. Qed.
Example doc_multiregion_in_polygon_3 :
    multiregion_in_polygon [Ctr [P 1 1; P 3 1; P 3 3; P 1 3]; Ctr [P 5 1; P 7 1; P 7 3; P 5 3]]
    (Poly (Ctr [P 0 0; P 4 0; P 4 4; P 0 4]) []) = Ok OVERLAP.
Proof. vm_compute. reflexivity. Qed.
Example doc_multiregion_in_polygon_4 :
    multiregion_in_polygon [Ctr [P 0 0; P 4 0; P 4 4; P 0 4]; Ctr [P 5 1; P 7 1; P 7 3; P 5 3]]
    (Poly (Ctr [P 1 1; P 3 1; P 3 3; P 1 3]) []) = Ok COVER.
Proof. vm_compute. reflexivity. Qed.
Example doc_multiregion_in_polygon_5 :
    multiregion_in_polygon [Ctr [P 0 0; P 4 0; P 4 4; P 0 4]; Ctr [P 5 1; P 7 1; P 7 3; P 5 3]]
    (Poly (Ctr [P 0 0; P 4 0; P 4 4; P 0 4]) [Ctr [P 1 1; P 3 1; P 3 3; P 1 3]]) = Ok ENCLOSES.
Proof. vm_compute. reflexivity. Qed.
Example doc_multiregion_in_polygon_6 :
    multiregion_in_polygon [Ctr [P 0 0; P 4 0; P 4 4; P 0 4]; Ctr [P 5 1; P 7 1; P 7 3; P 5 3]]
    (Poly (Ctr [P 0 0; P 4 0; P 4 4; P 0 4]) []) = Ok COMPOSITE.
Proof. vm_compute. reflexivity. Qed.
Example doc_multiregion_in_polygon_7 :
    multiregion_in_polygon [Ctr [P 0 0; P 4 0; P 4 4; P 0 4]; Ctr [P 5 1; P 7 1; P 7 3; P 5 3]]
    (Poly (Ctr [P 0 0; P 8 0; P 8 8; P 0 8]) []) = Ok ENCLOSED.
Proof. vm_compute. reflexivity. Qed.
Example doc_multiregion_in_polygon_8 :
    multiregion_in_polygon [Ctr [P 1 1; P 3 1; P 3 3; P 1 3]; Ctr [P 5 1; P 7 1; P 7 3; P 5 3]]
    (Poly (Ctr [P 0 0; P 8 0; P 8 8; P 0 8]) []) = Ok WITHIN.
Proof. vm_compute. reflexivity. Qed.
Example doc_polygon_in_polygon_1 :
    polygon_in_polygon (Poly (Ctr [P 0 0; P 7 0; P 7 7; P 0 7]) [Ctr [P 1 1; P 6 1; P 6 6; P 1
    6]]) (Poly (Ctr [P 2 2; P 5 2; P 5 5; P 2 5]) []) = Ok DISJOINT.
Proof. vm_compute. reflexivity. Qed.
Example doc_polygon_in_polygon_2 :
    polygon_in_polygon (Poly (Ctr [P 2 2; P 5 2; P 5 5; P 2 5]) []) (Poly (Ctr [P 0 0; P 7 0; P
    7 7; P 0 7]) [Ctr [P 1 1; P 6 1; P 6 6; P 1 6]]) = Ok DISJOINT.
Proof. vm_compute. reflexivity. Qed.
Example doc_polygon_in_polygon_3 :
    polygon_in_polygon (Poly (Ctr [P 0 0; P 7 0; P 7 7; P 0 7]) [Ctr [P 1 1; P 6 1; P 6 6; P 1
    6]]) (Poly (Ctr [P 2 2; P 5 2; P 5 5; P 2 5]) [Ctr [P 3 3; P 4 3; P 4 4; P 3 4]]) = Ok
    DISJOINT.
Proof. vm_compute. reflexivity. Qed.
Example doc_polygon_in_polygon_4 :
    polygon_in_polygon (Poly (Ctr [P 2 2; P 5 2; P 5 5; P 2 5]) [Ctr [P 3 3; P 4 3; P 4 4; P 3
    4]]) (Poly (Ctr [P 0 0; P 7 0; P 7 7; P 0 7]) [Ctr [P 1 1; P 6 1; P 6 6; P 1 6]]) = Ok
    DISJOINT.
Proof. vm_compute. reflexivity. Qed.
Example doc_polygon_in_polygon_5 :
    polygon_in_polygon (Poly (Ctr [P 1 1; P 6 1; P 6 6; P 1 6]) []) (Poly (Ctr [P 0 0; P 7 0; P
    7 7; P 0 7]) [Ctr [P 1 1; P 6 1; P 6 6; P 1 6]]) = Ok TOUCH.
Proof. vm_compute. reflexivity. Qed.
Example doc_polygon_in_polygon_6 :
    polygon_in_polygon (Poly (Ctr [P 0 0; P 7 0; P 7 7; P 0 7]) [Ctr [P 1 1; P 6 1; P 6 6; P 1
    6]]) (Poly (Ctr [P 1 1; P 6 1; P 6 6; P 1 6]) []) = Ok TOUCH.
Proof. vm_compute. reflexivity. Qed.
Example doc_polygon_in_polygon_7 :
    polygon_in_polygon (Poly (Ctr [P 0 0; P 7 0; P 7 7; P 0 7]) [Ctr [P 1 1; P 6 1; P 6 6; P 1
    6]]) (Poly (Ctr [P 1 1; P 6 1; P 6 6; P 1 6]) [Ctr [P 2 2; P 5 2; P 5 5; P 2 5]]) = Ok
    TOUCH.
Proof. vm_compute. reflexivity. Qed.
Example doc_polygon_in_polygon_8 :
    polygon_in_polygon (Poly (Ctr [P 1 1; P 6 1; P 6 6; P 1 6]) [Ctr [P 2 2; P 5 2; P 5 5; P 2
    5]]) (Poly (Ctr [P 0 0; P 7 0; P 7 7; P 0 7]) [Ctr [P 1 1; P 6 1; P 6 6; P 1 6]]) = Ok
    TOUCH.
Proof. vm_compute. reflexivity. Qed.
Example doc_polygon_in_polygon_9 :
    polygon_in_polygon (Poly (Ctr [P 1 1; P 6 1; P 6 6; P 1 6]) []) (Poly (Ctr [P 0 0; P 7 0; P
    7 7; P 0 7]) [Ctr [P 2 2; P 5 2; P 5 5; P 2 5]]) = Ok OVERLAP.
Proof. vm_compute. reflexivity. Qed.
Example doc_polygon_in_polygon_10 :
    polygon_in_polygon (Poly (Ctr [P 0 0; P 7 0; P 7 7; P 0 7]) [Ctr [P 2 2; P 5 2; P 5 5; P 2
    5]]) (Poly (Ctr [P 1 1; P 6 1; P 6 6; P 1 6]) []) = Ok OVERLAP.
Proof. vm_compute. reflexivity. Qed.
Example doc_polygon_in_polygon_11 :
    polygon_in_polygon (Poly (Ctr [P 0 0; P 7 0; P 7 7; P 0 7]) [Ctr [P 2 2; P 5 2; P 5 5; P 2
    5]]) (Poly (Ctr [P 1 1; P 6 1; P 6 6; P 1 6]) [Ctr [P 3 3; P 4 3; P 4 4; P 3 4]]) = Ok
    OVERLAP.
Proof. vm_compute. reflexivity. Qed.
Example doc_polygon_in_polygon_12 :
    polygon_in_polygon (Poly (Ctr [P 1 1; P 6 1; P 6 6; P 1 6]) [Ctr [P 3 3; P 4 3; P 4 4; P 3
    4]]) (Poly (Ctr [P 0 0; P 7 0; P 7 7; P 0 7]) [Ctr [P 2 2; P 5 2; P 5 5; P 2 5]]) = Ok
    OVERLAP.
Proof. vm_compute. reflexivity. Qed.
Example doc_polygon_in_polygon_13 :
    polygon_in_polygon (Poly (Ctr [P 0 0; P 7 0; P 7 7; P 0 7]) []) (Poly (Ctr [P 1 1; P 6 1; P
    6 6; P 1 6]) []) = Ok COVER.
Proof. vm_compute. reflexivity. Qed.
Example doc_polygon_in_polygon_14 :
    polygon_in_polygon (Poly (Ctr [P 0 0; P 7 0; P 7 7; P 0 7]) [Ctr [P 3 3; P 4 3; P 4 4; P 3
    4]]) (Poly (Ctr [P 1 1; P 6 1; P 6 6; P 1 6]) [Ctr [P 2 2; P 5 2; P 5 5; P 2 5]]) = Ok
    COVER.
Proof. vm_compute. reflexivity. Qed.
Example doc_polygon_in_polygon_15 :
    polygon_in_polygon (Poly (Ctr [P 0 0; P 7 0; P 7 7; P 0 7]) []) (Poly (Ctr [P 0 0; P 7 0; P
    7 7; P 0 7]) [Ctr [P 1 1; P 6 1; P 6 6; P 1 6]]) = Ok ENCLOSES.
Proof. vm_compute. reflexivity. Qed.
Example doc_polygon_in_polygon_16 :
    polygon_in_polygon (Poly (Ctr [P 0 0; P 7 0; P 7 7; P 0 7]) [Ctr [P 2 2; P 5 2; P 5 5; P 2
    5]]) (Poly (Ctr [P 0 0; P 7 0; P 7 7; P 0 7]) [Ctr [P 1 1; P 6 1; P 6 6; P 1 6]]) = Ok
    ENCLOSES.
Proof. vm_compute. reflexivity. Qed.
Example doc_polygon_in_polygon_17 :
    polygon_in_polygon (Poly (Ctr [P 0 0; P 7 0; P 7 7; P 0 7]) [Ctr [P 2 2; P 5 2; P 5 5; P 2
    5]]) (Poly (Ctr [P 1 1; P 6 1; P 6 6; P 1 6]) [Ctr [P 2 2; P 5 2; P 5 5; P 2 5]]) = Ok
    ENCLOSES.
Proof. vm_compute. reflexivity. Qed.
Example doc_polygon_in_polygon_18 :
    polygon_in_polygon (Poly (Ctr [P 0 0; P 7 0; P 7 7; P 0 7]) []) (Poly (Ctr [P 0 0; P 7 0; P
    7 7; P 0 7]) []) = Ok EQUAL.
Proof. vm_compute. reflexivity. Qed.
Example doc_polygon_in_polygon_19 :
    polygon_in_polygon (Poly (Ctr [P 0 0; P 7 0; P 7 7; P 0 7]) [Ctr [P 1 1; P 6 1; P 6 6; P 1
    6]]) (Poly (Ctr [P 0 0; P 7 0; P 7 7; P 0 7]) [Ctr [P 1 1; P 6 1; P 6 6; P 1 6]]) = Ok
    EQUAL.
Proof. vm_compute. reflexivity. Qed.
Example doc_polygon_in_polygon_20 :
    polygon_in_polygon (Poly (Ctr [P 0 0; P 7 0; P 7 7; P 0 7]) [Ctr [P 1 1; P 6 1; P 6 6; P 1
    6]]) (Poly (Ctr [P 0 0; P 7 0; P 7 7; P 0 7]) []) = Ok ENCLOSED.
Proof. vm_compute. reflexivity. Qed.
Example doc_polygon_in_polygon_21 :
    polygon_in_polygon (Poly (Ctr [P 0 0; P 7 0; P 7 7; P 0 7]) [Ctr [P 1 1; P 6 1; P 6 6; P 1
    6]]) (Poly (Ctr [P 0 0; P 7 0; P 7 7; P 0 7]) [Ctr [P 2 2; P 5 2; P 5 5; P 2 5]]) = Ok
    ENCLOSED.
Proof. vm_compute. reflexivity. Qed.
Example doc_polygon_in_polygon_22 :
    polygon_in_polygon (Poly (Ctr [P 1 1; P 6 1; P 6 6; P 1 6]) [Ctr [P 2 2; P 5 2; P 5 5; P 2
    5]]) (Poly (Ctr [P 0 0; P 7 0; P 7 7; P 0 7]) [Ctr [P 2 2; P 5 2; P 5 5; P 2 5]]) = Ok
    ENCLOSED.
Proof. vm_compute. reflexivity. Qed.
Example doc_polygon_in_polygon_23 :
    polygon_in_polygon (Poly (Ctr [P 1 1; P 6 1; P 6 6; P 1 6]) []) (Poly (Ctr [P 0 0; P 7 0; P
    7 7; P 0 7]) []) = Ok WITHIN.
Proof. vm_compute. reflexivity. Qed.
Example doc_polygon_in_polygon_24 :
    polygon_in_polygon (Poly (Ctr [P 1 1; P 6 1; P 6 6; P 1 6]) [Ctr [P 2 2; P 5 2; P 5 5; P 2
    5]]) (Poly (Ctr [P 0 0; P 7 0; P 7 7; P 0 7]) [Ctr [P 3 3; P 4 3; P 4 4; P 3 4]]) = Ok
    WITHIN.
Proof. vm_compute. reflexivity. Qed.
Example doc_point_in_multipolygon_1 :
    point_in_multipolygon (P 6 2) (MPoly [Poly (Ctr [P 0 0; P 4 0; P 4 4; P 0 4]) []; Poly (Ctr
    [P 4 4; P 8 4; P 8 8; P 4 8]) []]) = EXTERIOR.
Proof. vm_compute. reflexivity. Qed.
Example doc_point_in_multipolygon_2 :
    point_in_multipolygon (P 4 4) (MPoly [Poly (Ctr [P 0 0; P 4 0; P 4 4; P 0 4]) []; Poly (Ctr
    [P 4 4; P 8 4; P 8 8; P 4 8]) []]) = BOUNDARY.
Proof. vm_compute. reflexivity. Qed.
Example doc_point_in_multipolygon_3 :
    point_in_multipolygon (P 2 2) (MPoly [Poly (Ctr [P 0 0; P 4 0; P 4 4; P 0 4]) []; Poly (Ctr
    [P 4 4; P 8 4; P 8 8; P 4 8]) []]) = INTERIOR.
Proof. vm_compute. reflexivity. Qed.
Example doc_segment_in_multipolygon_1 :
    segment_in_multipolygon (Seg (P 2 5) (P 2 9)) (MPoly [Poly (Ctr [P 0 0; P 4 0; P 4 4; P 0
    4]) []; Poly (Ctr [P 4 4; P 8 4; P 8 8; P 4 8]) []]) = Ok DISJOINT.
Proof. vm_compute. reflexivity. Qed.
Example doc_segment_in_multipolygon_2 :
    segment_in_multipolygon (Seg (P 2 4) (P 2 8)) (MPoly [Poly (Ctr [P 0 0; P 4 0; P 4 4; P 0
    4]) []; Poly (Ctr [P 4 4; P 8 4; P 8 8; P 4 8]) []]) = Ok TOUCH.
Proof. vm_compute. reflexivity. Qed.
Example doc_segment_in_multipolygon_3 :
    segment_in_multipolygon (Seg (P 2 2) (P 2 6)) (MPoly [Poly (Ctr [P 0 0; P 4 0; P 4 4; P 0
    4]) []; Poly (Ctr [P 4 4; P 8 4; P 8 8; P 4 8]) []]) = Ok CROSS.
Proof. vm_compute. reflexivity. Qed.
Example doc_segment_in_multipolygon_4 :
    segment_in_multipolygon (Seg (P 2 4) (P 6 4)) (MPoly [Poly (Ctr [P 0 0; P 4 0; P 4 4; P 0
    4]) []; Poly (Ctr [P 4 4; P 8 4; P 8 8; P 4 8]) []]) = Ok COMPONENT.
Proof. vm_compute. reflexivity. Qed.
Example doc_segment_in_multipolygon_5 :
    segment_in_multipolygon (Seg (P 3 3) (P 5 5)) (MPoly [Poly (Ctr [P 0 0; P 4 0; P 4 4; P 0
    4]) []; Poly (Ctr [P 4 4; P 8 4; P 8 8; P 4 8]) []]) = Ok ENCLOSED.
Proof. vm_compute. reflexivity. Qed.
Example doc_segment_in_multipolygon_6 :
    segment_in_multipolygon (Seg (P 1 1) (P 3 3)) (MPoly [Poly (Ctr [P 0 0; P 4 0; P 4 4; P 0
    4]) []; Poly (Ctr [P 4 4; P 8 4; P 8 8; P 4 8]) []]) = Ok WITHIN.
Proof. vm_compute. reflexivity. Qed.
Example doc_multisegment_in_multipolygon_1 :
    multisegment_in_multipolygon (MSeg [Seg (P 0 0) (P 4 0); Seg (P 0 0) (P 0 4); Seg (P 4 0) (P
    4 4); Seg (P 0 4) (P 4 4)]) (MPoly [Poly (Ctr [P 1 1; P 3 1; P 3 3; P 1 3]) []; Poly (Ctr [P
    5 5; P 7 5; P 7 7; P 5 7]) []]) = Ok DISJOINT.
Proof. vm_compute. reflexivity. Qed.
Example doc_multisegment_in_multipolygon_2 :
    multisegment_in_multipolygon (MSeg [Seg (P 0 0) (P 4 0); Seg (P 0 0) (P 0 4); Seg (P 4 0) (P
    4 4); Seg (P 0 4) (P 4 4); Seg (P 1 1) (P 3 1); Seg (P 1 3) (P 1 1); Seg (P 3 1) (P 3 3);
    Seg (P 1 3) (P 3 3)]) (MPoly [Poly (Ctr [P 1 1; P 3 1; P 3 3; P 1 3]) []; Poly (Ctr [P 5 5;
    P 7 5; P 7 7; P 5 7]) []]) = Ok TOUCH.
Proof. vm_compute. reflexivity. Qed.
Example doc_multisegment_in_multipolygon_3 :
    multisegment_in_multipolygon (MSeg [Seg (P 0 0) (P 2 2); Seg (P 2 2) (P 4 0); Seg (P 2 2) (P
    4 4); Seg (P 0 4) (P 2 2)]) (MPoly [Poly (Ctr [P 1 1; P 3 1; P 3 3; P 1 3]) []; Poly (Ctr [P
    5 5; P 7 5; P 7 7; P 5 7]) []]) = Ok CROSS.
Proof. vm_compute. reflexivity. Qed.
Example doc_multisegment_in_multipolygon_4 :
    multisegment_in_multipolygon (MSeg [Seg (P 0 0) (P 4 0); Seg (P 0 0) (P 0 4); Seg (P 4 0) (P
    4 4); Seg (P 0 4) (P 4 4)]) (MPoly [Poly (Ctr [P 0 0; P 4 0; P 4 4; P 0 4]) []; Poly (Ctr [P
    4 4; P 8 4; P 8 8; P 4 8]) []]) = Ok COMPONENT.
Proof. vm_compute. reflexivity. Qed.
Example doc_multisegment_in_multipolygon_5 :
    multisegment_in_multipolygon (MSeg [Seg (P 1 1) (P 3 1); Seg (P 1 3) (P 1 1); Seg (P 3 1) (P
    3 3); Seg (P 1 3) (P 3 3)]) (MPoly [Poly (Ctr [P 0 0; P 4 0; P 4 4; P 0 4]) []; Poly (Ctr [P
    4 4; P 8 4; P 8 8; P 4 8]) []]) = Ok WITHIN.
Proof. vm_compute. reflexivity. Qed.
Example doc_contour_in_multipolygon_1 :
    contour_in_multipolygon (Ctr [P 0 0; P 4 0; P 4 4; P 0 4]) (MPoly [Poly (Ctr [P 1 1; P 3 1;
    P 3 3; P 1 3]) []; Poly (Ctr [P 5 1; P 7 1; P 7 3; P 5 3]) []]) = Ok DISJOINT.
Proof. vm_compute. reflexivity. Qed.
Example doc_contour_in_multipolygon_2 :
    contour_in_multipolygon (Ctr [P 4 0; P 8 0; P 8 4; P 4 4]) (MPoly [Poly (Ctr [P 0 0; P 4 0;
    P 4 4; P 0 4]) []; Poly (Ctr [P 4 4; P 8 4; P 8 8; P 4 8]) []]) = Ok TOUCH.
Proof. vm_compute. reflexivity. Qed.
Example doc_contour_in_multipolygon_3 :
    contour_in_multipolygon (Ctr [P 1 1; P 3 1; P 3 3; P 1 3]) (MPoly [Poly (Ctr [P 0 0; P 4 0;
    P 0 4]) []; Poly (Ctr [P 4 0; P 8 0; P 8 4; P 4 4]) []]) = Ok CROSS.
Proof. vm_compute. reflexivity. Qed.
Example doc_contour_in_multipolygon_4 :
    contour_in_multipolygon (Ctr [P 0 0; P 4 0; P 4 4; P 0 4]) (MPoly [Poly (Ctr [P 0 0; P 4 0;
    P 4 4; P 0 4]) []; Poly (Ctr [P 4 4; P 8 4; P 8 8; P 4 8]) []]) = Ok COMPONENT.
Proof. vm_compute. reflexivity. Qed.
Example doc_contour_in_multipolygon_5 :
    contour_in_multipolygon (Ctr [P 0 0; P 4 0; P 0 4]) (MPoly [Poly (Ctr [P 0 0; P 4 0; P 4 4;
    P 0 4]) []; Poly (Ctr [P 4 4; P 8 4; P 8 8; P 4 8]) []]) = Ok ENCLOSED.
Proof. vm_compute. reflexivity. Qed.
Example doc_contour_in_multipolygon_6 :
    contour_in_multipolygon (Ctr [P 1 1; P 3 1; P 3 3; P 1 3]) (MPoly [Poly (Ctr [P 0 0; P 4 0;
    P 4 4; P 0 4]) []; Poly (Ctr [P 4 4; P 8 4; P 8 8; P 4 8]) []]) = Ok WITHIN.
Proof. vm_compute. reflexivity. Qed.
Example doc_region_in_multipolygon_1 :
    region_in_multipolygon (Ctr [P 4 4; P 8 4; P 8 8; P 4 8]) (MPoly [Poly (Ctr [P 1 1; P 3 1; P
    3 3; P 1 3]) []; Poly (Ctr [P 5 1; P 7 1; P 7 3; P 5 3]) []]) = Ok DISJOINT.
Proof. vm_compute. reflexivity. Qed.
Example doc_region_in_multipolygon_2 :
    region_in_multipolygon (Ctr [P 4 0; P 8 0; P 8 4; P 4 4]) (MPoly [Poly (Ctr [P 0 0; P 4 0; P
    4 4; P 0 4]) []; Poly (Ctr [P 4 4; P 8 4; P 8 8; P 4 8]) []]) = Ok TOUCH.
Proof. vm_compute. reflexivity. Qed.
Example doc_region_in_multipolygon_3 :
    region_in_multipolygon (Ctr [P 0 0; P 4 0; P 4 4; P 0 4]) (MPoly [Poly (Ctr [P 1 1; P 3 1; P
    3 3; P 1 3]) []; Poly (Ctr [P 5 1; P 7 1; P 7 3; P 5 3]) []]) = Ok OVERLAP.
Proof. vm_compute. reflexivity. Qed.
Example doc_region_in_multipolygon_4 :
    region_in_multipolygon (Ctr [P 0 0; P 8 0; P 8 8; P 0 8]) (MPoly [Poly (Ctr [P 1 1; P 3 1; P
    3 3; P 1 3]) []; Poly (Ctr [P 5 1; P 7 1; P 7 3; P 5 3]) []]) = Ok COVER.
Proof. vm_compute. reflexivity. Qed.
Example doc_region_in_multipolygon_5 :
    region_in_multipolygon (Ctr [P 0 0; P 8 0; P 8 8; P 0 8]) (MPoly [Poly (Ctr [P 0 0; P 4 0; P
    4 4; P 0 4]) []; Poly (Ctr [P 4 4; P 8 4; P 8 8; P 4 8]) []]) = Ok ENCLOSES.
Proof. vm_compute. reflexivity. Qed.
Example doc_region_in_multipolygon_6 :
    region_in_multipolygon (Ctr [P 0 0; P 4 0; P 0 4]) (MPoly [Poly (Ctr [P 0 0; P 4 0; P 4 4; P
    0 4]) []; Poly (Ctr [P 4 4; P 8 4; P 8 8; P 4 8]) []]) = Ok ENCLOSED.
Proof. vm_compute. reflexivity. Qed.
Example doc_region_in_multipolygon_7 :
    region_in_multipolygon (Ctr [P 1 1; P 3 1; P 3 3; P 1 3]) (MPoly [Poly (Ctr [P 0 0; P 4 0; P
    4 4; P 0 4]) []; Poly (Ctr [P 4 4; P 8 4; P 8 8; P 4 8]) []]) = Ok WITHIN.
Proof. vm_compute. reflexivity. Qed.
Example doc_multiregion_in_multipolygon_1 :
    multiregion_in_multipolygon [Ctr [P 0 0; P 4 0; P 4 4; P 0 4]; Ctr [P 4 4; P 8 4; P 8 8; P 4
    8]] (MPoly [Poly (Ctr [P 5 1; P 7 1; P 7 3; P 5 3]) []; Poly (Ctr [P 1 5; P 3 5; P 3 7; P 1
    7]) []]) = Ok DISJOINT.
Proof. vm_compute. reflexivity. Qed.
Example doc_multiregion_in_multipolygon_2 :
    multiregion_in_multipolygon [Ctr [P 1 1; P 3 1; P 3 3; P 1 3]; Ctr [P 5 5; P 7 5; P 7 7; P 5
    7]] (MPoly [Poly (Ctr [P 4 0; P 8 0; P 8 4; P 4 4]) [Ctr [P 5 1; P 7 1; P 7 3; P 5 3]]; Poly
    (Ctr [P 0 4; P 4 4; P 4 8; P 0 8]) [Ctr [P 1 5; P 3 5; P 3 7; P 1 7]]]) = Ok DISJOINT.
Proof. vm_compute. reflexivity. Qed.
Example doc_multiregion_in_multipolygon_3 :
    multiregion_in_multipolygon [Ctr [P 0 0; P 4 0; P 4 4; P 0 4]; Ctr [P 4 4; P 8 4; P 8 8; P 4
    8]] (MPoly [Poly (Ctr [P 4 0; P 8 0; P 8 4; P 4 4]) []; Poly (Ctr [P 0 4; P 4 4; P 4 8; P 0
    8]) []]) = Ok TOUCH.
Proof. vm_compute. reflexivity. Qed.
Example doc_multiregion_in_multipolygon_4 :
    multiregion_in_multipolygon [Ctr [P 1 1; P 3 1; P 3 3; P 1 3]; Ctr [P 5 5; P 7 5; P 7 7; P 5
    7]] (MPoly [Poly (Ctr [P 0 0; P 4 0; P 4 4; P 0 4]) [Ctr [P 1 1; P 3 1; P 3 3; P 1 3]]; Poly
    (Ctr [P 4 4; P 8 4; P 8 8; P 4 8]) [Ctr [P 5 5; P 7 5; P 7 7; P 5 7]]]) = Ok TOUCH.
Proof. vm_compute. reflexivity. Qed.
Example doc_multiregion_in_multipolygon_5 :
    multiregion_in_multipolygon [Ctr [P 0 0; P 4 0; P 4 4; P 0 4]; Ctr [P 5 5; P 7 5; P 7 7; P 5
    7]] (MPoly [Poly (Ctr [P 1 1; P 3 1; P 3 3; P 1 3]) []; Poly (Ctr [P 4 4; P 8 4; P 8 8; P 4
    8]) []]) = Ok OVERLAP.
Proof. vm_compute. reflexivity. Qed.
Example doc_multiregion_in_multipolygon_6 :
    multiregion_in_multipolygon [Ctr [P 0 0; P 4 0; P 4 4; P 0 4]; Ctr [P 4 4; P 8 4; P 8 8; P 4
    8]] (MPoly [Poly (Ctr [P 1 1; P 3 1; P 3 3; P 1 3]) []; Poly (Ctr [P 5 5; P 7 5; P 7 7; P 5
    7]) []]) = Ok COVER.
Proof. vm_compute. reflexivity. Qed.
Example doc_multiregion_in_multipolygon_7 :
    multiregion_in_multipolygon [Ctr [P 0 0; P 4 0; P 4 4; P 0 4]; Ctr [P 5 5; P 7 5; P 7 7; P 5
    7]] (MPoly [Poly (Ctr [P 1 1; P 3 1; P 3 3; P 1 3]) []; Poly (Ctr [P 5 5; P 7 5; P 7 7; P 5
    7]) []]) = Ok ENCLOSES.
Proof. vm_compute. reflexivity. Qed.
Example doc_multiregion_in_multipolygon_8 :
    multiregion_in_multipolygon [Ctr [P 0 0; P 4 0; P 4 4; P 0 4]; Ctr [P 4 4; P 8 4; P 8 8; P 4
    8]] (MPoly [Poly (Ctr [P 0 0; P 4 0; P 4 4; P 0 4]) [Ctr [P 1 1; P 3 1; P 3 3; P 1 3]]; Poly
    (Ctr [P 4 4; P 8 4; P 8 8; P 4 8]) [Ctr [P 5 5; P 7 5; P 7 7; P 5 7]]]) = Ok ENCLOSES.
Proof. vm_compute. reflexivity. Qed.
Example doc_multiregion_in_multipolygon_9 :
    multiregion_in_multipolygon [Ctr [P 1 1; P 3 1; P 3 3; P 1 3]; Ctr [P 5 1; P 7 1; P 7 3; P 5
    3]; Ctr [P 5 5; P 7 5; P 7 7; P 5 7]] (MPoly [Poly (Ctr [P 1 1; P 3 1; P 3 3; P 1 3]) [];
    Poly (Ctr [P 5 5; P 7 5; P 7 7; P 5 7]) []]) = Ok COMPOSITE.
Proof. vm_compute. reflexivity. Qed.
Example doc_multiregion_in_multipolygon_10 :
    multiregion_in_multipolygon [Ctr [P 0 0; P 4 0; P 4 4; P 0 4]; Ctr [P 4 4; P 8 4; P 8 8; P 4
    8]] (MPoly [Poly (Ctr [P 0 0; P 4 0; P 4 4; P 0 4]) []; Poly (Ctr [P 4 4; P 8 4; P 8 8; P 4
    8]) []]) = Ok EQUAL.
Proof. vm_compute. reflexivity. Qed.
Example doc_multiregion_in_multipolygon_11 :
    multiregion_in_multipolygon [Ctr [P 1 1; P 3 1; P 3 3; P 1 3]; Ctr [P 5 1; P 7 1; P 7 3; P 5
    3]] (MPoly [Poly (Ctr [P 1 1; P 3 1; P 3 3; P 1 3]) []; Poly (Ctr [P 5 1; P 7 1; P 7 3; P 5
    3]) []; Poly (Ctr [P 5 5; P 7 5; P 7 7; P 5 7]) []]) = Ok COMPONENT.
Proof. vm_compute. reflexivity. Qed.
Example doc_multiregion_in_multipolygon_12 :
    multiregion_in_multipolygon [Ctr [P 1 1; P 3 1; P 3 3; P 1 3]; Ctr [P 5 5; P 7 5; P 7 7; P 5
    7]] (MPoly [Poly (Ctr [P 0 0; P 4 0; P 4 4; P 0 4]) []; Poly (Ctr [P 5 5; P 7 5; P 7 7; P 5
    7]) []]) = Ok ENCLOSED.
Proof. vm_compute. reflexivity. Qed.
Example doc_multiregion_in_multipolygon_13 :
    multiregion_in_multipolygon [Ctr [P 1 1; P 3 1; P 3 3; P 1 3]; Ctr [P 5 5; P 7 5; P 7 7; P 5
    7]] (MPoly [Poly (Ctr [P 0 0; P 4 0; P 4 4; P 0 4]) []; Poly (Ctr [P 4 4; P 8 4; P 8 8; P 4
    8]) []]) = Ok WITHIN.
Proof. vm_compute. reflexivity. Qed.
Example doc_polygon_in_multipolygon_1 :
    polygon_in_multipolygon (Poly (Ctr [P 0 0; P 7 0; P 7 7; P 0 7]) [Ctr [P 1 1; P 6 1; P 6 6;
    P 1 6]]) (MPoly [Poly (Ctr [P 2 2; P 5 2; P 5 5; P 2 5]) []]) = Ok DISJOINT.
Proof. vm_compute. reflexivity. Qed.
Example doc_polygon_in_multipolygon_2 :
    polygon_in_multipolygon (Poly (Ctr [P 2 2; P 5 2; P 5 5; P 2 5]) []) (MPoly [Poly (Ctr [P 0
    0; P 7 0; P 7 7; P 0 7]) [Ctr [P 1 1; P 6 1; P 6 6; P 1 6]]]) = Ok DISJOINT.
Proof. vm_compute. reflexivity. Qed.
Example doc_polygon_in_multipolygon_3 :
    polygon_in_multipolygon (Poly (Ctr [P 0 0; P 7 0; P 7 7; P 0 7]) [Ctr [P 1 1; P 6 1; P 6 6;
    P 1 6]]) (MPoly [Poly (Ctr [P 2 2; P 5 2; P 5 5; P 2 5]) [Ctr [P 3 3; P 4 3; P 4 4; P 3
    4]]]) = Ok DISJOINT.
Proof. vm_compute. reflexivity. Qed.
Example doc_polygon_in_multipolygon_4 :
    polygon_in_multipolygon (Poly (Ctr [P 2 2; P 5 2; P 5 5; P 2 5]) [Ctr [P 3 3; P 4 3; P 4 4;
    P 3 4]]) (MPoly [Poly (Ctr [P 0 0; P 7 0; P 7 7; P 0 7]) [Ctr [P 1 1; P 6 1; P 6 6; P 1
    6]]]) = Ok DISJOINT.
Proof. vm_compute. reflexivity. Qed.
Example doc_polygon_in_multipolygon_5 :
    polygon_in_multipolygon (Poly (Ctr [P 1 1; P 6 1; P 6 6; P 1 6]) []) (MPoly [Poly (Ctr [P 0
    0; P 7 0; P 7 7; P 0 7]) [Ctr [P 1 1; P 6 1; P 6 6; P 1 6]]]) = Ok TOUCH.
Proof. vm_compute. reflexivity. Qed.
Example doc_polygon_in_multipolygon_6 :
    polygon_in_multipolygon (Poly (Ctr [P 0 0; P 7 0; P 7 7; P 0 7]) [Ctr [P 1 1; P 6 1; P 6 6;
    P 1 6]]) (MPoly [Poly (Ctr [P 1 1; P 6 1; P 6 6; P 1 6]) []]) = Ok TOUCH.
Proof. vm_compute. reflexivity. Qed.
Example doc_polygon_in_multipolygon_7 :
    polygon_in_multipolygon (Poly (Ctr [P 0 0; P 7 0; P 7 7; P 0 7]) [Ctr [P 1 1; P 6 1; P 6 6;
    P 1 6]]) (MPoly [Poly (Ctr [P 1 1; P 6 1; P 6 6; P 1 6]) [Ctr [P 2 2; P 5 2; P 5 5; P 2
    5]]]) = Ok TOUCH.
Proof. vm_compute. reflexivity. Qed.
Example doc_polygon_in_multipolygon_8 :
    polygon_in_multipolygon (Poly (Ctr [P 1 1; P 6 1; P 6 6; P 1 6]) [Ctr [P 2 2; P 5 2; P 5 5;
    P 2 5]]) (MPoly [Poly (Ctr [P 0 0; P 7 0; P 7 7; P 0 7]) [Ctr [P 1 1; P 6 1; P 6 6; P 1
    6]]]) = Ok TOUCH.
Proof. vm_compute. reflexivity. Qed.
Example doc_polygon_in_multipolygon_9 :
    polygon_in_multipolygon (Poly (Ctr [P 1 1; P 6 1; P 6 6; P 1 6]) []) (MPoly [Poly (Ctr [P 0
    0; P 7 0; P 7 7; P 0 7]) [Ctr [P 2 2; P 5 2; P 5 5; P 2 5]]]) = Ok OVERLAP.
Proof. vm_compute. reflexivity. Qed.
Example doc_polygon_in_multipolygon_10 :
    polygon_in_multipolygon (Poly (Ctr [P 0 0; P 7 0; P 7 7; P 0 7]) [Ctr [P 2 2; P 5 2; P 5 5;
    P 2 5]]) (MPoly [Poly (Ctr [P 1 1; P 6 1; P 6 6; P 1 6]) []]) = Ok OVERLAP.
Proof. vm_compute. reflexivity. Qed.
Example doc_polygon_in_multipolygon_11 :
    polygon_in_multipolygon (Poly (Ctr [P 0 0; P 7 0; P 7 7; P 0 7]) [Ctr [P 2 2; P 5 2; P 5 5;
    P 2 5]]) (MPoly [Poly (Ctr [P 1 1; P 6 1; P 6 6; P 1 6]) [Ctr [P 3 3; P 4 3; P 4 4; P 3
    4]]]) = Ok OVERLAP.
Proof. vm_compute. reflexivity. Qed.
Example doc_polygon_in_multipolygon_12 :
    polygon_in_multipolygon (Poly (Ctr [P 1 1; P 6 1; P 6 6; P 1 6]) [Ctr [P 3 3; P 4 3; P 4 4;
    P 3 4]]) (MPoly [Poly (Ctr [P 0 0; P 7 0; P 7 7; P 0 7]) [Ctr [P 2 2; P 5 2; P 5 5; P 2
    5]]]) = Ok OVERLAP.
Proof. vm_compute. reflexivity. Qed.
Example doc_polygon_in_multipolygon_13 :
    polygon_in_multipolygon (Poly (Ctr [P 0 0; P 7 0; P 7 7; P 0 7]) []) (MPoly [Poly (Ctr [P 1
    1; P 6 1; P 6 6; P 1 6]) []]) = Ok COVER.
Proof. vm_compute. reflexivity. Qed.
Example doc_polygon_in_multipolygon_14 :
    polygon_in_multipolygon (Poly (Ctr [P 0 0; P 7 0; P 7 7; P 0 7]) [Ctr [P 3 3; P 4 3; P 4 4;
    P 3 4]]) (MPoly [Poly (Ctr [P 1 1; P 6 1; P 6 6; P 1 6]) [Ctr [P 2 2; P 5 2; P 5 5; P 2
    5]]]) = Ok COVER.
Proof. vm_compute. reflexivity. Qed.
Example doc_polygon_in_multipolygon_15 :
    polygon_in_multipolygon (Poly (Ctr [P 0 0; P 7 0; P 7 7; P 0 7]) []) (MPoly [Poly (Ctr [P 0
    0; P 7 0; P 7 7; P 0 7]) [Ctr [P 1 1; P 6 1; P 6 6; P 1 6]]]) = Ok ENCLOSES.
Proof. vm_compute. reflexivity. Qed.
Example doc_polygon_in_multipolygon_16 :
    polygon_in_multipolygon (Poly (Ctr [P 0 0; P 7 0; P 7 7; P 0 7]) [Ctr [P 2 2; P 5 2; P 5 5;
    P 2 5]]) (MPoly [Poly (Ctr [P 0 0; P 7 0; P 7 7; P 0 7]) [Ctr [P 1 1; P 6 1; P 6 6; P 1
    6]]]) = Ok ENCLOSES.
Proof. vm_compute. reflexivity. Qed.
Example doc_polygon_in_multipolygon_17 :
    polygon_in_multipolygon (Poly (Ctr [P 0 0; P 7 0; P 7 7; P 0 7]) [Ctr [P 2 2; P 5 2; P 5 5;
    P 2 5]]) (MPoly [Poly (Ctr [P 1 1; P 6 1; P 6 6; P 1 6]) [Ctr [P 2 2; P 5 2; P 5 5; P 2
    5]]]) = Ok ENCLOSES.
Proof. vm_compute. reflexivity. Qed.
Example doc_polygon_in_multipolygon_18 :
    polygon_in_multipolygon (Poly (Ctr [P 0 0; P 7 0; P 7 7; P 0 7]) []) (MPoly [Poly (Ctr [P 0
    0; P 7 0; P 7 7; P 0 7]) []]) = Ok EQUAL.
Proof. vm_compute. reflexivity. Qed.
Example doc_polygon_in_multipolygon_19 :
    polygon_in_multipolygon (Poly (Ctr [P 0 0; P 7 0; P 7 7; P 0 7]) [Ctr [P 1 1; P 6 1; P 6 6;
    P 1 6]]) (MPoly [Poly (Ctr [P 0 0; P 7 0; P 7 7; P 0 7]) [Ctr [P 1 1; P 6 1; P 6 6; P 1
    6]]]) = Ok EQUAL.
Proof. vm_compute. reflexivity. Qed.
Example doc_polygon_in_multipolygon_20 :
    polygon_in_multipolygon (Poly (Ctr [P 2 2; P 5 2; P 5 5; P 2 5]) []) (MPoly [Poly (Ctr [P 0
    0; P 7 0; P 7 7; P 0 7]) [Ctr [P 1 1; P 6 1; P 6 6; P 1 6]]; Poly (Ctr [P 2 2; P 5 2; P 5 5;
    P 2 5]) []]) = Ok COMPONENT.
Proof. vm_compute. reflexivity. Qed.
Example doc_polygon_in_multipolygon_21 :
    polygon_in_multipolygon (Poly (Ctr [P 2 2; P 5 2; P 5 5; P 2 5]) [Ctr [P 3 3; P 4 3; P 4 4;
    P 3 4]]) (MPoly [Poly (Ctr [P 0 0; P 7 0; P 7 7; P 0 7]) [Ctr [P 1 1; P 6 1; P 6 6; P 1 6]];
    Poly (Ctr [P 2 2; P 5 2; P 5 5; P 2 5]) [Ctr [P 3 3; P 4 3; P 4 4; P 3 4]]]) = Ok COMPONENT.
Proof. vm_compute. reflexivity. Qed.
Example doc_polygon_in_multipolygon_22 :
    polygon_in_multipolygon (Poly (Ctr [P 0 0; P 7 0; P 7 7; P 0 7]) [Ctr [P 1 1; P 6 1; P 6 6;
    P 1 6]]) (MPoly [Poly (Ctr [P 0 0; P 7 0; P 7 7; P 0 7]) []]) = Ok ENCLOSED.
Proof. vm_compute. reflexivity. Qed.
Example doc_polygon_in_multipolygon_23 :
    polygon_in_multipolygon (Poly (Ctr [P 0 0; P 7 0; P 7 7; P 0 7]) [Ctr [P 1 1; P 6 1; P 6 6;
    P 1 6]]) (MPoly [Poly (Ctr [P 0 0; P 7 0; P 7 7; P 0 7]) [Ctr [P 2 2; P 5 2; P 5 5; P 2
    5]]]) = Ok ENCLOSED.
Proof. vm_compute. reflexivity. Qed.
Example doc_polygon_in_multipolygon_24 :
    polygon_in_multipolygon (Poly (Ctr [P 1 1; P 6 1; P 6 6; P 1 6]) [Ctr [P 2 2; P 5 2; P 5 5;
    P 2 5]]) (MPoly [Poly (Ctr [P 0 0; P 7 0; P 7 7; P 0 7]) [Ctr [P 2 2; P 5 2; P 5 5; P 2
    5]]]) = Ok ENCLOSED.
Proof. vm_compute. reflexivity. Qed.
Example doc_polygon_in_multipolygon_25 :
    polygon_in_multipolygon (Poly (Ctr [P 1 1; P 6 1; P 6 6; P 1 6]) []) (MPoly [Poly (Ctr [P 0
    0; P 7 0; P 7 7; P 0 7]) []]) = Ok WITHIN.
Proof. vm_compute. reflexivity. Qed.
Example doc_polygon_in_multipolygon_26 :
    polygon_in_multipolygon (Poly (Ctr [P 1 1; P 6 1; P 6 6; P 1 6]) [Ctr [P 2 2; P 5 2; P 5 5;
    P 2 5]]) (MPoly [Poly (Ctr [P 0 0; P 7 0; P 7 7; P 0 7]) [Ctr [P 3 3; P 4 3; P 4 4; P 3
    4]]]) = Ok WITHIN.
Proof. vm_compute. reflexivity. Qed.
Example doc_multipolygon_in_multipolygon_1 :
    multipolygon_in_multipolygon (MPoly [Poly (Ctr [P 1 1; P 3 1; P 3 3; P 1 3]) []; Poly (Ctr
    [P 5 5; P 7 5; P 7 7; P 5 7]) []]) (MPoly [Poly (Ctr [P 4 0; P 8 0; P 8 4; P 4 4]) []; Poly
    (Ctr [P 0 4; P 4 4; P 4 8; P 0 8]) []]) = Ok DISJOINT.
Proof. vm_compute. reflexivity. Qed.
Example doc_multipolygon_in_multipolygon_2 :
    multipolygon_in_multipolygon (MPoly [Poly (Ctr [P 0 0; P 4 0; P 4 4; P 0 4]) []; Poly (Ctr
    [P 4 4; P 8 4; P 8 8; P 4 8]) []]) (MPoly [Poly (Ctr [P 4 0; P 8 0; P 8 4; P 4 4]) []; Poly
    (Ctr [P 0 4; P 4 4; P 4 8; P 0 8]) []]) = Ok TOUCH.
Proof. vm_compute. reflexivity. Qed.
Example doc_multipolygon_in_multipolygon_3 :
    multipolygon_in_multipolygon (MPoly [Poly (Ctr [P 1 1; P 3 1; P 3 3; P 1 3]) []; Poly (Ctr
    [P 5 5; P 7 5; P 7 7; P 5 7]) []]) (MPoly [Poly (Ctr [P 0 0; P 4 0; P 4 4; P 0 4]) [Ctr [P 1
    1; P 3 1; P 3 3; P 1 3]]; Poly (Ctr [P 4 4; P 8 4; P 8 8; P 4 8]) [Ctr [P 5 5; P 7 5; P 7 7;
    P 5 7]]]) = Ok TOUCH.
Proof. vm_compute. reflexivity. Qed.
Example doc_multipolygon_in_multipolygon_4 :
    multipolygon_in_multipolygon (MPoly [Poly (Ctr [P 0 0; P 4 0; P 4 4; P 0 4]) []; Poly (Ctr
    [P 5 5; P 7 5; P 7 7; P 5 7]) []]) (MPoly [Poly (Ctr [P 1 1; P 3 1; P 3 3; P 1 3]) []; Poly
    (Ctr [P 4 4; P 8 4; P 8 8; P 4 8]) []]) = Ok OVERLAP.
Proof. vm_compute. reflexivity. Qed.
Example doc_multipolygon_in_multipolygon_5 :
    multipolygon_in_multipolygon (MPoly [Poly (Ctr [P 0 0; P 4 0; P 4 4; P 0 4]) []; Poly (Ctr
    [P 4 4; P 8 4; P 8 8; P 4 8]) []]) (MPoly [Poly (Ctr [P 1 1; P 3 1; P 3 3; P 1 3]) []; Poly
    (Ctr [P 5 5; P 7 5; P 7 7; P 5 7]) []]) = Ok COVER.
Proof. vm_compute. reflexivity. Qed.
Example doc_multipolygon_in_multipolygon_6 :
    multipolygon_in_multipolygon (MPoly [Poly (Ctr [P 0 0; P 4 0; P 4 4; P 0 4]) []; Poly (Ctr
    [P 5 5; P 7 5; P 7 7; P 5 7]) []]) (MPoly [Poly (Ctr [P 1 1; P 3 1; P 3 3; P 1 3]) []; Poly
    (Ctr [P 5 5; P 7 5; P 7 7; P 5 7]) []]) = Ok ENCLOSES.
Proof. vm_compute. reflexivity. Qed.
Example doc_multipolygon_in_multipolygon_7 :
    multipolygon_in_multipolygon (MPoly [Poly (Ctr [P 0 0; P 4 0; P 4 4; P 0 4]) []; Poly (Ctr
    [P 4 4; P 8 4; P 8 8; P 4 8]) []]) (MPoly [Poly (Ctr [P 0 0; P 4 0; P 4 4; P 0 4]) [Ctr [P 1
    1; P 3 1; P 3 3; P 1 3]]; Poly (Ctr [P 4 4; P 8 4; P 8 8; P 4 8]) [Ctr [P 5 5; P 7 5; P 7 7;
    P 5 7]]]) = Ok ENCLOSES.
Proof. vm_compute. reflexivity. Qed.
Example doc_multipolygon_in_multipolygon_8 :
    multipolygon_in_multipolygon (MPoly [Poly (Ctr [P 1 1; P 3 1; P 3 3; P 1 3]) []; Poly (Ctr
    [P 5 1; P 7 1; P 7 3; P 5 3]) []; Poly (Ctr [P 5 5; P 7 5; P 7 7; P 5 7]) []]) (MPoly [Poly
    (Ctr [P 1 1; P 3 1; P 3 3; P 1 3]) []; Poly (Ctr [P 5 5; P 7 5; P 7 7; P 5 7]) []]) = Ok
    COMPOSITE.
Proof. vm_compute. reflexivity. Qed.
Example doc_multipolygon_in_multipolygon_9 :
    multipolygon_in_multipolygon (MPoly [Poly (Ctr [P 0 0; P 4 0; P 4 4; P 0 4]) []; Poly (Ctr
    [P 4 4; P 8 4; P 8 8; P 4 8]) []]) (MPoly [Poly (Ctr [P 0 0; P 4 0; P 4 4; P 0 4]) []; Poly
    (Ctr [P 4 4; P 8 4; P 8 8; P 4 8]) []]) = Ok EQUAL.
Proof. vm_compute. reflexivity. Qed.
Example doc_multipolygon_in_multipolygon_10 :
    multipolygon_in_multipolygon (MPoly [Poly (Ctr [P 1 1; P 3 1; P 3 3; P 1 3]) []; Poly (Ctr
    [P 5 1; P 7 1; P 7 3; P 5 3]) []]) (MPoly [Poly (Ctr [P 1 1; P 3 1; P 3 3; P 1 3]) []; Poly
    (Ctr [P 5 1; P 7 1; P 7 3; P 5 3]) []; Poly (Ctr [P 5 5; P 7 5; P 7 7; P 5 7]) []]) = Ok
    COMPONENT.
Proof. vm_compute. reflexivity. Qed.
Example doc_multipolygon_in_multipolygon_11 :
    multipolygon_in_multipolygon (MPoly [Poly (Ctr [P 1 1; P 3 1; P 3 3; P 1 3]) []; Poly (Ctr
    [P 5 5; P 7 5; P 7 7; P 5 7]) []]) (MPoly [Poly (Ctr [P 0 0; P 4 0; P 4 4; P 0 4]) []; Poly
    (Ctr [P 5 5; P 7 5; P 7 7; P 5 7]) []]) = Ok ENCLOSED.
Proof. vm_compute. reflexivity. Qed.
Example doc_multipolygon_in_multipolygon_12 :
    multipolygon_in_multipolygon (MPoly [Poly (Ctr [P 1 1; P 3 1; P 3 3; P 1 3]) []; Poly (Ctr
    [P 5 5; P 7 5; P 7 7; P 5 7]) []]) (MPoly [Poly (Ctr [P 0 0; P 4 0; P 4 4; P 0 4]) []; Poly
    (Ctr [P 4 4; P 8 4; P 8 8; P 4 8]) []]) = Ok WITHIN.
Proof. vm_compute. reflexivity. Qed.
