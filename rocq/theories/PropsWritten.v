(* Property C71: the answers do not depend on how the geometries are written
   down.  The exceptions, [segment_in_region] and [segment_in_polygon], are in
   PropsTold.v and PropsRefuted.v. *)
From Coq Require Import QArith Qcanon List Bool.
From Verif Require Import Scalar Base Ground MLinear MSweep MCompound Planar Spec SpecAreas SpecMore SpecWritten WrittenPoly Witness11 RefuteProofs Witness21.
Import ListNotations.
Open Scope Qc_scope.

Theorem written_valid :
  (forall m m', same_multisegment m m' -> valid_multisegment m -> valid_multisegment m')
  /\ (forall rs rs', same_multiregion rs rs' -> valid_multiregion rs -> valid_multiregion rs')
  /\ (forall p q, same_polygon p q -> valid_polygon p -> valid_polygon q)
  /\ (forall mp mp', same_multipolygon mp mp' -> valid_multipolygon mp -> valid_multipolygon mp').
Proof. exact written_valid_l. Qed.
Print Assumptions written_valid.
Example written_occurs :
  same_multisegment w_mseg w_mseg' /\ same_polygon w_poly w_poly' /\ same_multipolygon w_multi w_multi' /\ same_multiregion w_regions w_regions'
  /\ w_mseg' <> w_mseg /\ w_poly' <> w_poly /\ w_multi' <> w_multi /\ w_regions' <> w_regions
  /\ valid_multisegment w_mseg /\ valid_polygon w_poly /\ valid_multipolygon w_multi /\ valid_multiregion w_regions.
Proof. exact wit_written. Qed.

Theorem written_points : forall p,
  (forall s s', either_way s s' -> point_in_segment p s' = point_in_segment p s)
  /\ (forall m m', same_multisegment m m' -> point_in_multisegment p m' = point_in_multisegment p m)
  /\ (forall c c', rewritten c c' -> point_in_contour p c' = point_in_contour p c /\ point_in_region p c' = point_in_region p c)
  /\ (forall rs rs', same_multiregion rs rs' -> valid_multiregion rs -> point_in_multiregion p rs' = point_in_multiregion p rs)
  /\ (forall a b, same_polygon a b -> valid_polygon a -> point_in_polygon p b = point_in_polygon p a)
  /\ (forall mp mp', same_multipolygon mp mp' -> valid_multipolygon mp -> point_in_multipolygon p mp' = point_in_multipolygon p mp).
Proof. exact written_points_l. Qed.
Print Assumptions written_points.
Example written_points_occurs :
  map (fun p => point_in_polygon p w_poly') [P 3 3; P 5 5; P 4 5; P 12 12; P 13 0] = [INTERIOR; EXTERIOR; BOUNDARY; BOUNDARY; EXTERIOR]
  /\ map (fun p => point_in_polygon p w_poly) [P 3 3; P 5 5; P 4 5; P 12 12; P 13 0] = [INTERIOR; EXTERIOR; BOUNDARY; BOUNDARY; EXTERIOR].
Proof. split; vm_compute; reflexivity. Qed.

Theorem written_segments : forall s s', nondegenerate s -> either_way s s' ->
  (forall m m', same_multisegment m m' -> valid_multisegment m -> segment_in_multisegment s' m' = segment_in_multisegment s m)
  /\ (forall c c', rewritten c c' -> simple_contour c -> segment_in_contour s' c' = segment_in_contour s c)
  /\ (forall rs rs', same_multiregion rs rs' -> valid_multiregion rs -> segment_in_multiregion s' rs' = segment_in_multiregion s rs)
  /\ (forall mp mp', same_multipolygon mp mp' -> valid_multipolygon mp -> segment_in_multipolygon s' mp' = segment_in_multipolygon s mp).
Proof. exact written_segments_l. Qed.
Print Assumptions written_segments.

Theorem written_polygon_segment : forall s s' p q, nondegenerate s -> valid_polygon p -> either_way s s' -> same_polygon p q ->
  segment_in_region s' (border q) = segment_in_region s (border p) -> segment_in_polygon s' q = segment_in_polygon s p.
Proof. exact written_polygon_segment_l. Qed.
Print Assumptions written_polygon_segment.
Example written_polygon_segment_occurs :
  segment_in_region (Seg (P 3 5) (P 9 5)) (border w_poly) = Ok WITHIN /\ segment_in_region (Seg (P 9 5) (P 3 5)) (border w_poly') = Ok WITHIN
  /\ segment_in_polygon (Seg (P 3 5) (P 9 5)) w_poly = Ok CROSS /\ segment_in_polygon (Seg (P 9 5) (P 3 5)) w_poly' = Ok CROSS.
Proof. repeat (split; [vm_compute; reflexivity|]). vm_compute; reflexivity. Qed.

Theorem written_multisegments : forall m m', valid_multisegment m -> same_multisegment m m' ->
  (forall k k', same_multisegment k k' -> valid_multisegment k -> multisegment_in_multisegment m' k' = multisegment_in_multisegment m k)
  /\ (forall c c', rewritten c c' -> simple_contour c -> multisegment_in_contour m' c' = multisegment_in_contour m c /\ multisegment_in_region m' c' = multisegment_in_region m c)
  /\ (forall rs rs', same_multiregion rs rs' -> valid_multiregion rs -> multisegment_in_multiregion m' rs' = multisegment_in_multiregion m rs)
  /\ (forall p q, same_polygon p q -> valid_polygon p -> multisegment_in_polygon m' q = multisegment_in_polygon m p)
  /\ (forall mp mp', same_multipolygon mp mp' -> valid_multipolygon mp -> multisegment_in_multipolygon m' mp' = multisegment_in_multipolygon m mp).
Proof. exact written_multisegments_l. Qed.
Print Assumptions written_multisegments.
Example written_lines_occur :
  map (fun m => multisegment_in_polygon m w_poly) [w_mseg; w_mseg'] = [Ok CROSS; Ok CROSS]
  /\ map (fun pg => multisegment_in_polygon w_mseg pg) [w_poly; w_poly'] = [Ok CROSS; Ok CROSS]
  /\ multisegment_in_multipolygon w_mseg' w_multi' = Ok CROSS /\ multisegment_in_multiregion w_mseg' w_regions' = multisegment_in_multiregion w_mseg w_regions
  /\ multisegment_in_contour w_mseg' (turned (sqr 0 12)) = Ok CROSS /\ multisegment_in_multisegment w_mseg' w_mseg = Ok EQUAL
  /\ segment_in_multisegment (Seg (P 1 5) (P 1 2)) w_mseg = COMPONENT /\ segment_in_multisegment (Seg (P 1 2) (P 1 5)) w_mseg' = COMPONENT
  /\ map (fun c => contour_in_polygon c w_poly') [sqr 4 8; turned (sqr 5 6); moved (sqr 3 5)] = [Ok COMPONENT; Ok DISJOINT; Ok CROSS]
  /\ map (fun c => contour_in_polygon c w_poly) [sqr 4 8; sqr 5 6; sqr 3 5] = [Ok COMPONENT; Ok DISJOINT; Ok CROSS].
Proof. exact wit_written_lines. Qed.

Theorem written_contours : forall c c', simple_contour c -> rewritten c c' ->
  (forall r r', rewritten r r' -> simple_contour r -> contour_in_contour c' r' = contour_in_contour c r /\ contour_in_region c' r' = contour_in_region c r /\ region_in_region c' r' = region_in_region c r)
  /\ (forall rs rs', same_multiregion rs rs' -> valid_multiregion rs -> contour_in_multiregion c' rs' = contour_in_multiregion c rs /\ region_in_multiregion c' rs' = region_in_multiregion c rs)
  /\ (forall p q, same_polygon p q -> valid_polygon p -> contour_in_polygon c' q = contour_in_polygon c p /\ region_in_polygon c' q = region_in_polygon c p)
  /\ (forall mp mp', same_multipolygon mp mp' -> valid_multipolygon mp -> contour_in_multipolygon c' mp' = contour_in_multipolygon c mp /\ region_in_multipolygon c' mp' = region_in_multipolygon c mp).
Proof. exact written_contours_l. Qed.
Print Assumptions written_contours.

Theorem written_areas :
  (forall qs qs', same_multiregion qs qs' -> valid_multiregion qs ->
     (forall rs rs', same_multiregion rs rs' -> valid_multiregion rs -> multiregion_in_multiregion qs' rs' = multiregion_in_multiregion qs rs)
     /\ (forall p q, same_polygon p q -> valid_polygon p -> multiregion_in_polygon qs' q = multiregion_in_polygon qs p)
     /\ (forall mp mp', same_multipolygon mp mp' -> valid_multipolygon mp -> multiregion_in_multipolygon qs' mp' = multiregion_in_multipolygon qs mp))
  /\ (forall a b, same_polygon a b -> valid_polygon a ->
     (forall p q, same_polygon p q -> valid_polygon p -> polygon_in_polygon b q = polygon_in_polygon a p)
     /\ (forall mp mp', same_multipolygon mp mp' -> valid_multipolygon mp -> polygon_in_multipolygon b mp' = polygon_in_multipolygon a mp))
  /\ (forall mq mq', same_multipolygon mq mq' -> valid_multipolygon mq ->
     forall mp mp', same_multipolygon mp mp' -> valid_multipolygon mp -> multipolygon_in_multipolygon mq' mp' = multipolygon_in_multipolygon mq mp).
Proof. exact written_areas_l. Qed.
Print Assumptions written_areas.
Example written_areas_occur :
  map (fun rs => multiregion_in_polygon rs w_poly') [w_regions; w_regions'; [sqr 4 6; sqr 1 2]; [sqr (-1) 20; sqr 30 31]] = [Ok TOUCH; Ok TOUCH; Ok TOUCH; Ok COVER]
  /\ map (fun rs => multiregion_in_polygon rs w_poly) [w_regions; w_regions'; [sqr 4 6; sqr 1 2]; [sqr (-1) 20; sqr 30 31]] = [Ok TOUCH; Ok TOUCH; Ok TOUCH; Ok COVER]
  /\ map (fun p => polygon_in_polygon p w_poly') [w_poly; w_poly'; Poly (sqr 3 9) [sqr 4 8]; Poly (sqr 5 6) []] = [Ok EQUAL; Ok EQUAL; Ok ENCLOSED; Ok DISJOINT]
  /\ map (fun p => polygon_in_polygon p w_poly) [w_poly; w_poly'; Poly (sqr 3 9) [sqr 4 8]; Poly (sqr 5 6) []] = [Ok EQUAL; Ok EQUAL; Ok ENCLOSED; Ok DISJOINT]
  /\ map (fun p => polygon_in_multipolygon p w_multi') [w_poly; w_poly'] = [Ok COMPONENT; Ok COMPONENT]
  /\ multipolygon_in_multipolygon w_multi w_multi' = Ok EQUAL /\ multiregion_in_multipolygon w_regions' w_multi' = Ok TOUCH
  /\ region_in_multipolygon (sqr 0 12) w_multi' = Ok OVERLAP /\ region_in_multipolygon (turned (sqr 0 12)) w_multi = Ok OVERLAP.
Proof. exact wit_written_areas. Qed.
