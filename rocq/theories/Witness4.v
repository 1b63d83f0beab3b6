(* Witnesses for the hypotheses of the theorems of PropsSafe.v. *)
From Coq Require Import QArith Qcanon List Bool ZArith Lia.
From Verif Require Import Scalar Base Ground MLinear MSweep MCompound Planar Spec Geom PointProofs Check RefuteProofs.
Import ListNotations.
Open Scope Qc_scope.

Definition cross_ms : multisegment := MSeg [Seg (P (-1) 1) (P 5 1); Seg (P 1 (-1)) (P 1 5)].
Definition overlapping_ms : multisegment := MSeg [Seg (P 0 0) (P 4 0); Seg (P 1 0) (P 5 0)].
Lemma wit_c38 :
  valid_multisegment cross_ms /\ simple_contour sq_a /\ valid_multiregion [sq_a; tri_b]
  /\ valid_polygon w_in /\ valid_polygon w_out /\ holes w_out <> []
  /\ valid_multipolygon (MPoly [Poly sq_a []; Poly tri_b []])
  /\ multisegment_in_contour cross_ms sq_a <> Ok DISJOINT
  /\ multiregion_in_multiregion [sq_a; tri_b] [sq_a] <> Ok DISJOINT
  /\ polygon_in_polygon w_in w_out <> Ok DISJOINT.
Proof.
  split; [apply valid_multisegmentb_ok; vm_compute; reflexivity|].
  split; [apply simple_contourb_ok; vm_compute; reflexivity|].
  split; [apply ab_valid|]. split; [apply w_in_valid|]. split; [apply w_out_valid|]. split; [discriminate|].
  split; [apply ab_polygons_valid|]. repeat apply conj; vm_compute; discriminate.
Qed.
Lemma wit_c38_overlap :
  ~ valid_multisegment overlapping_ms /\ multisegment_in_multisegment overlapping_ms cross_ms = Raise ValueError.
Proof.
  split; [|vm_compute; reflexivity]. intros (_ & _ & H). inversion H as [|? ? F _]; subst. inversion F as [|? ? E _]; subst.
  assert (K : P 1 0 = P 4 0).
  { apply E;
      match goal with |- in_segment ?s ?p => apply (proj2 (reflect_iff _ _ (segment_contains_point_spec s p))) end;
      vm_compute; reflexivity. }
  apply (f_equal (fun p => (this (px p), this (py p)))) in K. vm_compute in K. discriminate.
Qed.
