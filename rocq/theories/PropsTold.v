(* What segment_in_region answers in general, and contours written down differently. *)
From Coq Require Import QArith Qcanon List Bool ZArith.
From Verif Require Import Scalar Base Ground MLinear MSweep MCompound Planar Spec SpecAreas SpecMore RefuteProofs SegTold Rewritten Witness6 Witness10 Witness11 Witness14.
Import ListNotations.
Open Scope Qc_scope.

(** C62: segment_in_region is told by the edges and by the ends of the segment,
    also for segments that run along the boundary. *)
Theorem segment_in_region_told : forall s r, nondegenerate s -> simple_contour r -> ends_settled s r ->
  answer_is (segment_region_spec s r) (segment_in_region s r).
Proof. exact segment_in_region_told_l. Qed.
Print Assumptions segment_in_region_told.
Theorem segment_in_region_edges : forall s r, nondegenerate s -> simple_contour r ->
  (segment_in_region s r = Ok CROSS <-> crossed_by s (cyc_pairs (vertices r))) /\ (segment_in_region s r = Ok COMPONENT <-> in_one_edge s r).
Proof. exact segment_in_region_cross_iff_l. Qed.
Print Assumptions segment_in_region_edges.
Example segment_in_region_told_occurs : simple_contour l_shape /\ Forall (fun s => nondegenerate s /\ ends_settled s l_shape) told_lines
  /\ map (fun s => segment_in_region s l_shape) told_lines = [Ok ENCLOSED; Ok TOUCH; Ok COMPONENT; Ok TOUCH; Ok ENCLOSED; Ok CROSS; Ok WITHIN; Ok DISJOINT; Ok TOUCH].
Proof. exact wit_told. Qed.

(** C63: contours written down differently. *)
Theorem rewritten_valid :
  (forall c d, rewritten c d -> simple_contour c -> simple_contour d)
  /\ (forall rs rs', Forall2 rewritten rs rs' -> valid_multiregion rs -> valid_multiregion rs')
  /\ (forall p q, rewritten_polygon p q -> valid_polygon p -> valid_polygon q).
Proof. exact rewritten_valid_l. Qed.
Print Assumptions rewritten_valid.
Theorem segment_in_contour_rewritten : forall s c d, rewritten c d -> nondegenerate s -> simple_contour c ->
  segment_in_contour s c = segment_in_contour s d.
Proof. exact segment_contour_rewritten. Qed.
Print Assumptions segment_in_contour_rewritten.
Theorem segment_in_region_rewritten : forall s c d, rewritten c d -> nondegenerate s -> simple_contour c ->
  forall r, In r [DISJOINT; WITHIN; COMPONENT; CROSS] -> segment_in_region s c = Ok r -> segment_in_region s d = Ok r.
Proof. exact segment_region_rewritten. Qed.
Print Assumptions segment_in_region_rewritten.
Theorem segment_in_region_rewritten_refuted : exists s c d, nondegenerate s /\ simple_contour c /\ rewritten c d /\ interior_on_left c
  /\ segment_in_region s c = Ok ENCLOSED /\ segment_in_region s d = Ok TOUCH.
Proof. exact segment_in_region_rewritten_refuted_l. Qed.
Print Assumptions segment_in_region_rewritten_refuted.
Theorem contours_rewritten : forall c c' r r', simple_contour c -> simple_contour r -> rewritten c c' -> rewritten r r' ->
  contour_in_contour c' r' = contour_in_contour c r /\ contour_in_region c' r' = contour_in_region c r /\ region_in_region c' r' = region_in_region c r.
Proof. exact contours_rewritten_l. Qed.
Print Assumptions contours_rewritten.
Theorem areas_rewritten : forall r r', simple_contour r -> rewritten r r' ->
  (forall qs qs', valid_multiregion qs -> qs <> [] -> Forall2 rewritten qs qs' -> region_in_multiregion r' qs' = region_in_multiregion r qs
     /\ forall rs rs', valid_multiregion rs -> rs <> [] -> Forall2 rewritten rs rs' -> multiregion_in_multiregion qs' rs' = multiregion_in_multiregion qs rs)
  /\ (forall pg pg', valid_polygon pg -> rewritten_polygon pg pg' -> region_in_polygon r' pg' = region_in_polygon r pg).
Proof. exact areas_rewritten_l. Qed.
Print Assumptions areas_rewritten.
Example rewritten_occurs : rewritten step_c step_last /\ step_c <> step_last /\ rewritten l_shape (Ctr (rev (vertices l_shape))) /\ simple_contour step_c /\ simple_contour l_shape
  /\ map (fun s => segment_in_contour s (Ctr (rev (vertices l_shape)))) told_lines = map (fun s => segment_in_contour s l_shape) told_lines
  /\ rewritten_polygon (Poly (sqr 0 12) [sqr 1 2; sqr 4 8]) (Poly (Ctr (rev (vertices (sqr 0 12)))) [sqr 1 2; sqr 4 8]) /\ valid_polygon (Poly (sqr 0 12) [sqr 1 2; sqr 4 8]).
Proof. exact wit_rewritten. Qed.
