(* Witnesses for regions whose vertices are listed clockwise. *)
From Coq Require Import QArith Qcanon List Bool ZArith Lia.
From Verif Require Import Scalar Base Ground MLinear MSweep MCompound Planar Spec SpecAreas SpecAround SpecContact SpecMore SpecRings SpecNested SpecLines SpecChord SpecClockwise Geom PointProofs Corner Check Witness RefuteProofs Witness6 Witness10 Witness11 Witness12 AreaAnswer Drawn Areas ContactProofs Consequences AreaQueries SegRegion NestedProofs LinesProofs ChordProofs Witness31 ClockwiseProofs.
Import ListNotations.
Open Scope Qc_scope.

Definition house_cw : contour := Ctr [P 0 0; P 0 4; P 2 6; P 4 4; P 4 0].
Definition crown : contour := Ctr [P 0 0; P 0 4; P 2 2; P 4 4; P 4 0; P 2 (-1)].
Definition crown_lines : list segment := [Seg (P 0 4) (P 3 3); Seg (P 3 3) (P 0 4); Seg (P 2 2) (P 2 (-1)); Seg (P 0 4) (P 4 0); Seg (P 1 3) (P 3 3); Seg (P 4 0) (P 5 1); Seg (P 0 4) (P 0 2); Seg (P (-1) 1) (P 5 1); Seg (P 5 5) (P 6 6); Seg (P 1 1) (P 3 1)].
Lemma cw_not_left c : simple_contour c -> contour_orientation c = Ok CW -> ~ interior_on_left c.
Proof. intros SC E L. apply (interior_left_ccw c SC) in L. congruence. Qed.
Ltac known_at := let K := fresh in intros K; vm_compute in K; repeat (destruct K as [K|K]; [try discriminate K|]); try (destruct K; fail);
  first [left; first [exists 1%nat; split; [vm_compute; reflexivity|right; reflexivity]|exists 4%nat; split; [vm_compute; reflexivity|left; reflexivity]]
        |right; first [exists 2%nat; split; [vm_compute; reflexivity|right; left; reflexivity]|exists 5%nat; split; [vm_compute; reflexivity|left; reflexivity]]].
Lemma wit_clockwise : simple_contour crown /\ ~ interior_on_left crown /\ Forall (fun s => nondegenerate s /\ known_end crown (s_start s) /\ known_end crown (s_end s)) crown_lines
  /\ map (fun s => segment_in_region s crown) crown_lines = [Ok TOUCH; Ok TOUCH; Ok ENCLOSED; Ok ENCLOSED; Ok TOUCH; Ok TOUCH; Ok COMPONENT; Ok CROSS; Ok DISJOINT; Ok WITHIN].
Proof.
  assert (C : simple_contour crown) by simple. split; [exact C|]. split; [apply (cw_not_left crown C); vm_compute; reflexivity|]. split; [|vm_compute; reflexivity].
  repeat (apply Forall_cons; [split; [nd|]; split; cbn [s_start s_end]; known_at|]). constructor.
Qed.
Lemma wit_five : simple_contour house_cw /\ length (vertices house_cw) = 5%nat /\ nondegenerate (Seg (P 0 0) (P 1 5)) /\ linear_areal_spec (in_segment (Seg (P 0 0) (P 1 5))) (region_area house_cw) ENCLOSED
  /\ segment_in_region (Seg (P 0 0) (P 1 5)) house_cw = Ok TOUCH.
Proof.
  assert (C : simple_contour house_cw) by simple. assert (N : nondegenerate (Seg (P 0 0) (P 1 5))) by nd. split; [exact C|]. split; [reflexivity|]. split; [exact N|].
  split; [apply one_truth; [exact N|exact C|vm_compute; reflexivity|discriminate]|vm_compute; reflexivity].
Qed.
Lemma wit_few : simple_contour dent /\ ~ interior_on_left dent /\ length (vertices dent) = 4%nat /\ segment_in_region (Seg (P 1 2) (P 2 0)) dent = Ok COMPONENT
  /\ segment_in_region (Seg (P 1 2) (P 2 2)) dent = Ok ENCLOSED /\ segment_in_region (Seg (P 0 2) (P 1 2)) dent = Ok TOUCH /\ segment_in_region (Seg (P 2 0) (P 3 3)) dent = Ok ENCLOSED
  /\ linear_areal_spec (in_segment (Seg (P 1 2) (P 2 2))) (region_area dent) ENCLOSED /\ linear_areal_spec (in_segment (Seg (P 2 0) (P 3 3))) (region_area dent) TOUCH.
Proof.
  assert (C : simple_contour dent) by simple. split; [exact C|]. split; [apply (cw_not_left dent C); vm_compute; reflexivity|]. split; [reflexivity|].
  split; [vm_compute; reflexivity|]. split; [vm_compute; reflexivity|]. split; [vm_compute; reflexivity|]. split; [vm_compute; reflexivity|].
  split; (apply one_truth; [nd|exact C|vm_compute; reflexivity|discriminate]).
Qed.
Lemma wit_few_polygon : valid_polygon (Poly (Ctr [P 0 0; P 0 4; P 4 4; P 4 0]) [sqr 1 2]) /\ segment_in_polygon (Seg (P 0 0) (P 4 0)) (Poly (Ctr [P 0 0; P 0 4; P 4 4; P 4 0]) [sqr 1 2]) = Ok COMPONENT
  /\ segment_in_polygon (Seg (P 0 4) (P 1 1)) (Poly (Ctr [P 0 0; P 0 4; P 4 4; P 4 0]) [sqr 1 2]) = Ok ENCLOSED /\ segment_in_polygon (Seg (P 0 4) (P 0 6)) (Poly (Ctr [P 0 0; P 0 4; P 4 4; P 4 0]) [sqr 1 2]) = Ok TOUCH.
Proof. split; [valid_pg|]. split; [vm_compute; reflexivity|]. split; vm_compute; reflexivity. Qed.
Lemma wit_full : simple_contour house_cw /\ ~ interior_on_left house_cw /\ nondegenerate (Seg (P 0 0) (P 1 5)) /\ nondegenerate (Seg (P 0 0) (P 4 4)) /\ looked_at house_cw (P 0 0) (P 2 6)
  /\ told_off house_cw (P 0 0) (P 1 5) /\ segment_in_region (Seg (P 0 0) (P 1 5)) house_cw = Ok TOUCH /\ segment_in_region (Seg (P 0 0) (P 4 4)) house_cw = Ok ENCLOSED.
Proof.
  assert (C : simple_contour house_cw) by simple. split; [exact C|]. split; [apply (cw_not_left house_cw C); vm_compute; reflexivity|]. split; [nd|]. split; [nd|].
  assert (L : looked_at house_cw (P 0 0) (P 2 6)) by (exists 0%nat; split; [reflexivity|]; split; [cbn; lia|reflexivity]). split; [exact L|].
  split; [|split; vm_compute; reflexivity]. left. split; [left; reflexivity|]. exists (P 4 0), (P 2 6). split; [cbn; auto 10|]. split; [exact L|].
  split; [vm_compute; reflexivity|]. left. split; [vm_compute; reflexivity|]. right. vm_compute. reflexivity.
Qed.
