(* Inputs for the examples and counterexamples of PropsTold.v. *)
From Coq Require Import QArith Qcanon List Bool ZArith.
From Verif Require Import Scalar Base Ground MLinear MSweep MCompound Planar Spec SpecAreas SpecMore Geom PointProofs SegProofs EqualProofs Check NoFail RefuteProofs
  Orient Corner SegContour SegEdges SegRegion SegTold Witness6 Witness10 Witness11.
Import ListNotations.
Open Scope Qc_scope.

(* A square with a step cut into its upper side; the line of the step runs outside,
   along an edge and inside. *)
Definition step_tail : list point := [P (-2) 3; P (-2) (-3); P 6 (-3); P 6 3; P 4 3; P 4 0; P 2 0; P 2 (-1)].
Definition step_c : contour := Ctr (P 0 0 :: P 0 3 :: step_tail).
Definition step_last : contour := Ctr (P 0 3 :: step_tail ++ [P 0 0]).
Definition step_s : segment := Seg (P 0 0) (P 6 0).
Lemma step_left : interior_on_left step_c.
Proof. apply interior_left_ccw; [simple|vm_compute; reflexivity]. Qed.
Lemma l_left : interior_on_left l_shape.
Proof. apply interior_left_ccw; [simple|vm_compute; reflexivity]. Qed.
Lemma step_rewritten : rewritten step_c step_last.
Proof. left. exists [P 0 0], (P 0 3 :: step_tail). split; reflexivity. Qed.
Definition told_lines : list segment :=
  [Seg (P 1 2) (P 5 2); Seg (P 5 2) (P 1 2); Seg (P 2 2) (P 4 2); Seg (P 3 2) (P 5 2); Seg (P 0 2) (P 4 2); Seg (P (-1) 1) (P 5 1); Seg (P 1 1) (P 2 1); Seg (P 5 5) (P 6 6); Seg (P 4 2) (P 2 4)].
Lemma wit_told : simple_contour l_shape /\ Forall (fun s => nondegenerate s /\ ends_settled s l_shape) told_lines
  /\ map (fun s => segment_in_region s l_shape) told_lines = [Ok ENCLOSED; Ok TOUCH; Ok COMPONENT; Ok TOUCH; Ok ENCLOSED; Ok CROSS; Ok WITHIN; Ok DISJOINT; Ok TOUCH].
Proof.
  split; [simple|]. split; [|vm_compute; reflexivity].
  repeat (apply Forall_cons; [split; [nd|right; right; right; exact l_left]|]); apply Forall_nil.
Qed.
Lemma segment_in_region_rewritten_refuted_l : exists s c d, nondegenerate s /\ simple_contour c /\ rewritten c d /\ interior_on_left c
  /\ segment_in_region s c = Ok ENCLOSED /\ segment_in_region s d = Ok TOUCH.
Proof.
  exists step_s, step_c, step_last. split; [nd|]. split; [simple|]. split; [exact step_rewritten|]. split; [exact step_left|]. split; vm_compute; reflexivity.
Qed.
Lemma wit_rewritten : rewritten step_c step_last /\ step_c <> step_last /\ rewritten l_shape (Ctr (rev (vertices l_shape))) /\ simple_contour step_c /\ simple_contour l_shape
  /\ map (fun s => segment_in_contour s (Ctr (rev (vertices l_shape)))) told_lines = map (fun s => segment_in_contour s l_shape) told_lines
  /\ rewritten_polygon (Poly (sqr 0 12) [sqr 1 2; sqr 4 8]) (Poly (Ctr (rev (vertices (sqr 0 12)))) [sqr 1 2; sqr 4 8]) /\ valid_polygon (Poly (sqr 0 12) [sqr 1 2; sqr 4 8]).
Proof.
  split; [exact step_rewritten|]. split; [intros H; vm_compute in H; discriminate H|].
  assert (RV : forall c, rewritten c (Ctr (rev (vertices c)))) by (intros c; right; exists (rev (vertices c)), []; split; [symmetry; apply app_nil_r|reflexivity]).
  assert (RF : forall c, rewritten c c) by (intros c; left; exists (vertices c), []; split; [symmetry; apply app_nil_r|reflexivity]).
  split; [apply RV|]. split; [simple|]. split; [simple|]. split; [vm_compute; reflexivity|]. split; [|valid_pg].
  split; [apply RV|]. cbn [holes]. apply Forall2_cons; [apply RF|]. apply Forall2_cons; [apply RF|]. apply Forall2_nil.
Qed.
