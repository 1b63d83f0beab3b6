(* Witnesses for lines in areas of different kinds. *)
From Coq Require Import QArith Qcanon List Bool ZArith.
From Verif Require Import Scalar Base Ground MLinear MSweep MCompound Planar Spec SpecAreas SpecAround SpecContact SpecMore SpecRings SpecNested SpecLines Geom Check Witness RefuteProofs Witness6 Witness10 Witness11 Witness12 Witness16 Witness18 Witness22 Areas NestedProofs LinesProofs Witness29.
Import ListNotations.
Open Scope Qc_scope.

Definition frame : polygon := Poly (sqr 0 5) [sqr 2 3].
Definition frames : multipolygon := MPoly [Poly (sqr (-1) 6) [sqr 2 3]; Poly (sqr 7 8) []].
Definition chord : segment := Seg (P 1 1) (P 1 4).
Definition chords : multisegment := MSeg [Seg (P 1 1) (P 1 4); Seg (P 4 1) (P 4 4)].
Lemma wit_lines : line_valid (LSegment chord) /\ line_valid (LMultisegment chords) /\ line_valid (LContour (sqr 1 4)) /\ geo_valid (GPolygon frame) /\ geo_valid (GMultipolygon frames)
  /\ geo_valid (GRegion (sqr 2 3)) /\ line_settled (LSegment chord) (GPolygon frame) /\ subset (line_set (LSegment chord)) (line_set (LMultisegment chords))
  /\ found (GPolygon frame) (GMultipolygon frames) ENCLOSED /\ found (GPolygon frame) (GRegion (sqr 2 3)) TOUCH
  /\ segment_in_polygon chord frame = Ok WITHIN /\ multisegment_in_polygon chords frame = Ok WITHIN /\ contour_in_polygon (sqr 1 4) frame = Ok WITHIN
  /\ segment_in_multipolygon chord frames = Ok WITHIN /\ multisegment_in_multipolygon chords frames = Ok WITHIN /\ contour_in_multipolygon (sqr 1 4) frames = Ok WITHIN
  /\ contour_in_polygon (sqr 2 3) frame = Ok COMPONENT /\ contour_in_multipolygon (sqr 2 3) frames = Ok COMPONENT /\ contour_in_region (sqr 2 3) (sqr 2 3) = Ok COMPONENT
  /\ segment_in_region chord (sqr 2 3) = Ok DISJOINT.
Proof.
  split; [nd|]. split; [valid_ms|]. split; [simple|]. split; [valid_pg|]. split; [split; [valid_mp|discriminate]|]. split; [simple|].
  split; [split; [ns|left; on_ctr]|].
  split; [intros p H; exists chord; split; [left; reflexivity|exact H]|].
  split; [left; rewrite <- (eq_refl : polygon_in_multipolygon frame frames = Ok ENCLOSED); apply ask_pq|].
  split; [right; exists TOUCH; split; [rewrite <- (eq_refl : region_in_polygon (sqr 2 3) frame = Ok TOUCH); apply ask_rp|reflexivity]|].
  repeat split; vm_compute; reflexivity.
Qed.
(* A contour that lies in a polygon that lies in a multipolygon. *)
Definition gap : contour := Ctr [P 0 (-2); P 1 0; P 0 2].
Definition gapped : polygon := Poly (Ctr [P (-1) 3; P (-1) (-3); P 0 (-2); P 2 0; P 0 2]) [gap].
Definition darts : multipolygon := MPoly (map (fun c => Poly c []) dart).
Lemma wit_line_crossing : simple_contour in_dart /\ geo_valid (GPolygon gapped) /\ geo_valid (GMultipolygon darts)
  /\ asked_line (LContour in_dart) (GPolygon gapped) (Ok COMPONENT) /\ asked (GPolygon gapped) (GMultipolygon darts) (Ok ENCLOSED) /\ asked_line (LContour in_dart) (GMultipolygon darts) (Ok CROSS)
  /\ subset (on_contour in_dart) (a_cl (multipolygon_area darts)).
Proof.
  assert (V1 : geo_valid (GPolygon gapped)) by valid_pg. assert (V2 : geo_valid (GMultipolygon darts)) by (split; [valid_mp|discriminate]). assert (C : simple_contour in_dart) by simple.
  assert (Q1 : asked_line (LContour in_dart) (GPolygon gapped) (Ok COMPONENT)) by (rewrite <- (eq_refl : contour_in_polygon in_dart gapped = Ok COMPONENT); apply ask_cp).
  assert (Q2 : asked (GPolygon gapped) (GMultipolygon darts) (Ok ENCLOSED)) by (rewrite <- (eq_refl : polygon_in_multipolygon gapped darts = Ok ENCLOSED); apply ask_pq).
  split; [exact C|]. split; [exact V1|]. split; [exact V2|]. split; [exact Q1|]. split; [exact Q2|].
  split; [rewrite <- (eq_refl : contour_in_multipolygon in_dart darts = Ok CROSS); apply ask_cq|].
  pose proof (part_found _ _ ENCLOSED V1 V2 (or_introl Q2) ltac:(cbn; auto)) as S.
  destruct (line_facts_l (LContour in_dart) (GPolygon gapped) _ C V1 I Q1) as (_ & _ & J & _). intros p Hp. apply S, J; [exists COMPONENT; split; [reflexivity|left; reflexivity]|exact Hp].
Qed.
