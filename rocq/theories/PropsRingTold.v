(* Property C87.  Statements only; the proofs are in RingTold.v and Witness36.v. *)
From Coq Require Import QArith Qcanon List Bool ZArith.
From Verif Require Import Scalar Base Ground MLinear MSweep MCompound Planar Spec SpecAreas SpecMore SpecAround SpecRingTold RefuteProofs RingTold Witness12 Witness22 Witness35 Witness36.
Import ListNotations.
Open Scope Qc_scope.

(** C87: whatever rings touch, exactly what is answered for a contour and a
    polygon. *)
Theorem contour_in_polygon_rings : forall pg, valid_polygon pg -> forall c, simple_contour c -> ring_told (on_contour c) (contours_edges [c]) pg (contour_in_polygon c pg).
Proof. exact contour_in_polygon_rings_l. Qed.
Print Assumptions contour_in_polygon_rings.
(** Each answer on its own. *)
Theorem contour_in_polygon_each : forall pg, valid_polygon pg -> forall c, simple_contour c -> each_ring_answer (on_contour c) (contours_edges [c]) pg (contour_in_polygon c pg).
Proof. exact contour_in_polygon_each_l. Qed.
Print Assumptions contour_in_polygon_each.
Example ring_contours_occur : valid_polygon cut_pg /\ valid_polygon darted /\ Forall simple_contour [loop_c; left_c; in_dart; border cut_pg]
  /\ passes_rings (on_contour loop_c) (contours_edges [loop_c]) cut_pg /\ contour_in_polygon loop_c cut_pg = Ok CROSS
  /\ passes_rings (on_contour in_dart) (contours_edges [in_dart]) darted /\ contour_in_polygon in_dart darted = Ok CROSS
  /\ changes_rings (on_contour left_c) cut_pg /\ contour_in_polygon left_c cut_pg = Ok ENCLOSED
  /\ map (fun c => contour_in_polygon c cut_pg) [border cut_pg; sqr 1 2; sqr 20 21; Ctr [P 1 1; P 5 3; P 1 3]; Ctr [P 4 1; P 5 4; P 4 7]; Ctr [P 4 0; P 5 4; P 4 7]]
  = [Ok COMPONENT; Ok WITHIN; Ok DISJOINT; Ok CROSS; Ok DISJOINT; Ok TOUCH].
Proof. exact wit_ring_told. Qed.

(** For segments the same holds if the answer for the region of the border is
    right (see C46, C62, C81, C82). *)
Theorem segment_in_polygon_rings : forall pg, valid_polygon pg -> forall s, nondegenerate s -> answer_is (linear_areal_spec (in_segment s) (region_area (border pg))) (segment_in_region s (border pg)) ->
  ring_told (in_segment s) [(s_start s, s_end s)] pg (segment_in_polygon s pg).
Proof. exact segment_in_polygon_rings_l. Qed.
Print Assumptions segment_in_polygon_rings.
Theorem segment_in_polygon_each : forall pg, valid_polygon pg -> forall s, nondegenerate s -> answer_is (linear_areal_spec (in_segment s) (region_area (border pg))) (segment_in_region s (border pg)) ->
  each_ring_answer (in_segment s) [(s_start s, s_end s)] pg (segment_in_polygon s pg).
Proof. exact segment_in_polygon_each_l. Qed.
Print Assumptions segment_in_polygon_each.
Example ring_segments_occur : nondegenerate drop_s /\ answer_is (linear_areal_spec (in_segment drop_s) (region_area (border cut_pg))) (segment_in_region drop_s (border cut_pg))
  /\ passes_rings (in_segment drop_s) [(s_start drop_s, s_end drop_s)] cut_pg /\ segment_in_polygon drop_s cut_pg = Ok CROSS.
Proof. exact wit_ring_segments. Qed.

(** A polygon and the multipolygon of it. *)
Theorem contour_in_one_polygon_always : forall c pg, simple_contour c -> valid_polygon pg ->
  contour_in_polygon c pg = contour_in_multipolygon c (MPoly [pg])
  \/ (contour_in_polygon c pg = Ok CROSS /\ contour_in_multipolygon c (MPoly [pg]) = Ok TOUCH /\ passes_rings (on_contour c) (contours_edges [c]) pg)
  \/ (contour_in_polygon c pg = Ok ENCLOSED /\ contour_in_multipolygon c (MPoly [pg]) = Ok COMPONENT /\ changes_rings (on_contour c) pg).
Proof. exact contour_one_polygon_l. Qed.
Print Assumptions contour_in_one_polygon_always.
(** Affine maps do not change the answers. *)
Theorem contour_in_polygon_affine : forall m c pg, det m <> 0 -> simple_contour c -> valid_polygon pg -> contour_in_polygon (aff_ctr m c) (aff_pg m pg) = contour_in_polygon c pg.
Proof. exact contour_in_polygon_affine_l. Qed.
Print Assumptions contour_in_polygon_affine.
Theorem segment_in_polygon_affine : forall m s pg, det m <> 0 -> nondegenerate s -> valid_polygon pg ->
  segment_in_region (aff_seg m s) (aff_ctr m (border pg)) = segment_in_region s (border pg) -> segment_in_polygon (aff_seg m s) (aff_pg m pg) = segment_in_polygon s pg.
Proof. exact segment_in_polygon_affine_l. Qed.
Print Assumptions segment_in_polygon_affine.
Example ring_affine_occurs : det turned45 <> 0
  /\ map (fun c => contour_in_polygon (aff_ctr turned45 c) (aff_pg turned45 cut_pg)) [loop_c; left_c; sqr 1 2; border cut_pg] = [Ok CROSS; Ok ENCLOSED; Ok WITHIN; Ok COMPONENT]
  /\ contour_in_polygon (aff_ctr turned45 in_dart) (aff_pg turned45 darted) = Ok CROSS.
Proof. exact wit_ring_affine. Qed.
