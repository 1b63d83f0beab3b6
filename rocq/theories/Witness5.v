(* Inputs for the examples of PropsOpen.v. *)
From Coq Require Import QArith Qcanon List Bool ZArith.
From Verif Require Import Scalar Base Ground MLinear MSweep MCompound Planar Spec Geom PointProofs SegProofs Check OpenProofs RefuteProofs Witness4.
Import ListNotations.
Open Scope Qc_scope.

(* The bottom side of [sq_a], in two pieces, and variations of it. *)
Definition o_bar : multisegment := MSeg [Seg (P 0 0) (P 2 0); Seg (P 4 0) (P 2 0)].
Definition o_half : multisegment := MSeg [Seg (P 0 0) (P 1 0); Seg (P 1 0) (P 3 0)].
Definition o_shift : multisegment := MSeg [Seg (P 1 0) (P 3 0); Seg (P 3 0) (P 6 0)].
Definition o_far : multisegment := MSeg [Seg (P 0 (-1)) (P 2 (-1)); Seg (P 2 (-1)) (P 4 (-2))].
Definition o_touch : multisegment := MSeg [Seg (P 1 1) (P 1 0); Seg (P 3 1) (P 3 0)].
Definition o_below : multisegment := MSeg [Seg (P 1 (-1)) (P 1 0); Seg (P 3 (-1)) (P 3 0)].
Definition o_sides : multisegment :=
  MSeg [Seg (P 4 0) (P 0 0); Seg (P 4 4) (P 4 0); Seg (P 0 0) (P 0 4); Seg (P 0 4) (P 3 4); Seg (P 3 4) (P 4 4)].
Definition o_sides_more : multisegment := MSeg (Seg (P 4 4) (P 5 5) :: segments o_sides).
Definition o_inner : multisegment := MSeg [Seg (P 1 1) (P 3 3); Seg (P 3 1) (P 1 3)].

Lemma wit_c24 :
  let ans m m' r := valid_multisegment m /\ valid_multisegment m' /\ multisegment_in_multisegment m m' = Ok r in
  ans o_bar o_bar EQUAL /\ ans o_half o_bar COMPONENT /\ ans o_bar o_half COMPOSITE
  /\ ans o_shift o_bar OVERLAP /\ ans o_far o_bar DISJOINT /\ ans o_touch o_bar TOUCH /\ ans cross_ms o_bar CROSS
  /\ meets (in_multisegment cross_ms) (in_multisegment o_bar).
Proof.
  assert (B : valid_multisegment o_bar) by (apply valid_multisegmentb_ok; vm_compute; reflexivity).
  assert (H : valid_multisegment o_half) by (apply valid_multisegmentb_ok; vm_compute; reflexivity).
  cbv zeta. repeat apply conj; try exact B; try exact H; try (apply valid_multisegmentb_ok; vm_compute; reflexivity);
    try (vm_compute; reflexivity).
  exists (P 1 0). split.
  - exists (Seg (P 1 (-1)) (P 1 5)). split; [right; left; reflexivity|].
    match goal with |- in_segment ?s ?p => apply (proj2 (reflect_iff _ _ (segment_contains_point_spec s p))) end; vm_compute; reflexivity.
  - exists (Seg (P 0 0) (P 2 0)). split; [left; reflexivity|].
    match goal with |- in_segment ?s ?p => apply (proj2 (reflect_iff _ _ (segment_contains_point_spec s p))) end; vm_compute; reflexivity.
Qed.
Lemma wit_c26 :
  let ans m r := valid_multisegment m /\ multisegment_in_contour m sq_a = Ok r in
  simple_contour sq_a
  /\ ans o_sides EQUAL /\ ans o_bar COMPONENT /\ ans o_sides_more COMPOSITE /\ ans o_shift OVERLAP
  /\ ans o_far DISJOINT /\ ans o_below TOUCH /\ ans cross_ms CROSS.
Proof.
  cbv zeta. repeat apply conj; try (apply valid_multisegmentb_ok; vm_compute; reflexivity);
    try (apply simple_contourb_ok; vm_compute; reflexivity); vm_compute; reflexivity.
Qed.
Lemma wit_c23 :
  valid_multisegment o_inner /\ ~ meets (in_multisegment o_inner) (on_contour sq_a)
  /\ multisegment_in_contour o_inner sq_a = Ok DISJOINT.
Proof.
  assert (V : valid_multisegment o_inner) by (apply valid_multisegmentb_ok; vm_compute; reflexivity).
  assert (S : simple_contour sq_a) by (apply simple_contourb_ok; vm_compute; reflexivity).
  assert (E : multisegment_in_contour o_inner sq_a = Ok DISJOINT) by (vm_compute; reflexivity).
  split; [exact V|]. split; [|exact E].
  destruct (multisegment_in_contour_exact_l _ _ V S) as (rel & E' & H & _). rewrite E in E'. injection E' as <-. exact H.
Qed.
