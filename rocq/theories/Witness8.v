(* Inputs for the examples of PropsCross.v. *)
From Coq Require Import QArith Qcanon List Bool ZArith.
From Verif Require Import Scalar Base Ground MLinear MSweep MCompound Planar Spec Geom PointProofs SegProofs Check OpenProofs ClosedProofs RefuteProofs Witness4 Witness5 Witness6 Witness7.
Import ListNotations.
Open Scope Qc_scope.

Ltac inner s := split; [apply (proj2 (reflect_iff _ _ (segment_contains_point_spec s _))); vm_compute; reflexivity|split; intros K; discriminate (f_equal (fun p => (this (px p), this (py p))) K)].
Lemma linear_cross_shares X Y r : linear_answer X Y r -> r = Ok CROSS -> ~ share_segment X Y.
Proof. intros (rel & -> & S & _) K. injection K as ->. apply S. Qed.
Lemma wit_contours_cross : simple_contour c_up /\ simple_contour sq_a
  /\ ~ share_segment (on_contour c_up) (on_contour sq_a) /\ edges_cross (cyc_pairs (vertices c_up)) (cyc_pairs (vertices sq_a))
  /\ simple_contour c_near /\ contour_in_contour c_near sq_a = Ok TOUCH.
Proof.
  assert (U : simple_contour c_up) by simple. assert (A : simple_contour sq_a) by simple.
  split; [exact U|]. split; [exact A|]. split.
  - apply (linear_cross_shares _ _ (contour_in_contour c_up sq_a)); [apply contour_in_contour_exact_l; assumption|vm_compute; reflexivity].
  - split; [|split; [simple|vm_compute; reflexivity]].
    apply (contour_in_contour_cross_l c_up sq_a U A). vm_compute. reflexivity.
Qed.
Lemma wit_segments_cross : valid_multisegment cross_ms /\ valid_multisegment o_bar
  /\ edges_cross (segment_list cross_ms) (segment_list o_bar) /\ ~ share_segment (in_multisegment cross_ms) (in_multisegment o_bar)
  /\ edges_cross (segment_list cross_ms) (cyc_pairs (vertices sq_a)) /\ ~ share_segment (in_multisegment cross_ms) (on_contour sq_a)
  /\ valid_multisegment o_touch /\ multisegment_in_multisegment o_touch o_bar = Ok TOUCH.
Proof.
  assert (M : valid_multisegment cross_ms) by (apply valid_multisegmentb_ok; vm_compute; reflexivity).
  assert (B : valid_multisegment o_bar) by (apply valid_multisegmentb_ok; vm_compute; reflexivity).
  assert (T : valid_multisegment o_touch) by (apply valid_multisegmentb_ok; vm_compute; reflexivity).
  assert (A : simple_contour sq_a) by simple.
  split; [exact M|]. split; [exact B|]. split.
  - exists (P 1 (-1)), (P 1 5), (P 0 0), (P 2 0), (P 1 0). split; [right; left; reflexivity|]. split; [left; reflexivity|].
    split; [inner (Seg (P 1 (-1)) (P 1 5))|inner (Seg (P 0 0) (P 2 0))].
  - split; [apply (linear_cross_shares _ _ (multisegment_in_multisegment cross_ms o_bar)); [apply multisegment_in_multisegment_exact_l; assumption|vm_compute; reflexivity]|].
    split.
    + exists (P 1 (-1)), (P 1 5), (P 0 0), (P 4 0), (P 1 0). split; [right; left; reflexivity|]. split; [left; reflexivity|].
      split; [inner (Seg (P 1 (-1)) (P 1 5))|inner (Seg (P 0 0) (P 4 0))].
    + split; [apply (linear_cross_shares _ _ (multisegment_in_contour cross_ms sq_a)); [apply multisegment_in_contour_exact_l; assumption|vm_compute; reflexivity]|].
      split; [exact T|vm_compute; reflexivity].
Qed.
