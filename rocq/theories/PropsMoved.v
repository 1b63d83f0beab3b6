(* Property C73: moving, and stretching along the axes.  No condition is put on
   the geometries: if a query fails, it fails alike.  At the end affine maps
   (C59) for the queries left out in PropsAgree.v. *)
From Coq Require Import QArith Qcanon List Bool.
From Verif Require Import Scalar Base Ground MLinear MSweep MCompound Planar Spec SpecAreas SpecMore SpecSides SpecMoved Witness RefuteProofs Witness11 Witness12 Witness13 Witness22 Witness23 MappedSides MappedPoly.
Import ListNotations.
Open Scope Qc_scope.

Theorem moved_points : forall a b t u, 0 < a -> 0 < b -> let m := stretch a b t u in forall p,
  (forall s, point_in_segment (aff_pt m p) (aff_seg m s) = point_in_segment p s)
  /\ (forall ms, point_in_multisegment (aff_pt m p) (aff_ms m ms) = point_in_multisegment p ms)
  /\ (forall c, point_in_contour (aff_pt m p) (aff_ctr m c) = point_in_contour p c /\ point_in_region (aff_pt m p) (aff_ctr m c) = point_in_region p c)
  /\ (forall rs, point_in_multiregion (aff_pt m p) (aff_mr m rs) = point_in_multiregion p rs)
  /\ (forall pg, point_in_polygon (aff_pt m p) (aff_pg m pg) = point_in_polygon p pg)
  /\ (forall mp, point_in_multipolygon (aff_pt m p) (aff_mp m mp) = point_in_multipolygon p mp).
Proof. exact moved_points_l. Qed.
Print Assumptions moved_points.
Example moved_points_occur :
  map (fun p => point_in_polygon (aff_pt shift p) (aff_pg shift cut_pg)) [P 1 1; P 4 4; P 4 0; P 9 9] = [INTERIOR; EXTERIOR; BOUNDARY; EXTERIOR]
  /\ aff_pt shift (P 1 1) <> P 1 1.
Proof. split; [vm_compute; reflexivity|vm_compute; discriminate]. Qed.

Theorem moved_segments : forall a b t u, 0 < a -> 0 < b -> let m := stretch a b t u in forall s,
  (forall s', segment_in_segment (aff_seg m s) (aff_seg m s') = segment_in_segment s s')
  /\ (forall ms, segment_in_multisegment (aff_seg m s) (aff_ms m ms) = segment_in_multisegment s ms)
  /\ (forall c, segment_in_contour (aff_seg m s) (aff_ctr m c) = segment_in_contour s c /\ segment_in_region (aff_seg m s) (aff_ctr m c) = segment_in_region s c)
  /\ (forall rs, segment_in_multiregion (aff_seg m s) (aff_mr m rs) = segment_in_multiregion s rs)
  /\ (forall pg, segment_in_polygon (aff_seg m s) (aff_pg m pg) = segment_in_polygon s pg)
  /\ (forall mp, segment_in_multipolygon (aff_seg m s) (aff_mp m mp) = segment_in_multipolygon s mp).
Proof. exact moved_segments_l. Qed.
Print Assumptions moved_segments.
Example moved_segments_occur :
  map (fun s => segment_in_polygon (aff_seg shift s) (aff_pg shift cut_pg)) [Seg (P 0 1) (P 8 1); Seg (P 1 1) (P 1 2); Seg (P 3 4) (P 5 4); Seg (P 4 (-8)) (P 4 8)] = [Ok CROSS; Ok WITHIN; Ok DISJOINT; Ok CROSS]
  /\ map (fun s => segment_in_polygon s cut_pg) [Seg (P 0 1) (P 8 1); Seg (P 1 1) (P 1 2); Seg (P 3 4) (P 5 4); Seg (P 4 (-8)) (P 4 8)] = [Ok CROSS; Ok WITHIN; Ok DISJOINT; Ok CROSS].
Proof. split; vm_compute; reflexivity. Qed.

Theorem moved_multisegments : forall a b t u, 0 < a -> 0 < b -> let m := stretch a b t u in forall ms,
  (forall c, multisegment_in_region (aff_ms m ms) (aff_ctr m c) = multisegment_in_region ms c)
  /\ (forall rs, multisegment_in_multiregion (aff_ms m ms) (aff_mr m rs) = multisegment_in_multiregion ms rs)
  /\ (forall pg, multisegment_in_polygon (aff_ms m ms) (aff_pg m pg) = multisegment_in_polygon ms pg)
  /\ (forall mp, multisegment_in_multipolygon (aff_ms m ms) (aff_mp m mp) = multisegment_in_multipolygon ms mp).
Proof. exact moved_multisegments_l. Qed.
Print Assumptions moved_multisegments.
Example moved_multisegments_occur :
  map (fun ms => multisegment_in_region (aff_ms shift ms) (aff_ctr shift (sqr 0 9))) [star2; star3; twice] = [Ok CROSS; Ok CROSS; Raise ValueError]
  /\ map (fun ms => multisegment_in_region ms (sqr 0 9)) [star2; star3; twice] = [Ok CROSS; Ok CROSS; Raise ValueError].
Proof. split; vm_compute; reflexivity. Qed.

(* The two queries that compare angles by cosines. *)
Theorem moved_lines : forall a t u ms, 0 < a -> let m := stretch a a t u in
  (forall ms', multisegment_in_multisegment (aff_ms m ms) (aff_ms m ms') = multisegment_in_multisegment ms ms')
  /\ (forall c, multisegment_in_contour (aff_ms m ms) (aff_ctr m c) = multisegment_in_contour ms c).
Proof. exact moved_lines_l. Qed.
Print Assumptions moved_lines.
Example moved_lines_occur : valid_multisegment star2 /\ valid_multisegment star3
  /\ multisegment_in_multisegment (aff_ms double star2) (aff_ms double star3) = Ok TOUCH /\ multisegment_in_multisegment star3 star2 = multisegment_in_multisegment (aff_ms double star3) (aff_ms double star2)
  /\ multisegment_in_multisegment twice star3 = multisegment_in_multisegment (aff_ms double twice) (aff_ms double star3)
  /\ map (fun m => multisegment_in_contour (aff_ms m star2) (aff_ctr m (sqr 0 1))) [tall; double; shift] = [Ok CROSS; Ok CROSS; Ok CROSS].
Proof. exact wit_moved_lines. Qed.
(* With different factors the answer may change. *)
Theorem multisegments_stretched_refuted : exists a b ms ms', 0 < a /\ 0 < b /\ valid_multisegment ms /\ valid_multisegment ms'
  /\ multisegment_in_multisegment ms ms' = Ok TOUCH /\ multisegment_in_multisegment (aff_ms (stretch a b 0 0) ms) (aff_ms (stretch a b 0 0) ms') = Ok CROSS.
Proof. exact (ex_intro _ 1 (ex_intro _ (zq 5) (ex_intro _ star2 (ex_intro _ star3 wit_stretched)))). Qed.
Print Assumptions multisegments_stretched_refuted.

Theorem moved_contours : forall a b t u, 0 < a -> 0 < b -> let m := stretch a b t u in forall c,
  (forall c', contour_in_contour (aff_ctr m c) (aff_ctr m c') = contour_in_contour c c' /\ contour_in_region (aff_ctr m c) (aff_ctr m c') = contour_in_region c c')
  /\ (forall rs, contour_in_multiregion (aff_ctr m c) (aff_mr m rs) = contour_in_multiregion c rs)
  /\ (forall pg, contour_in_polygon (aff_ctr m c) (aff_pg m pg) = contour_in_polygon c pg)
  /\ (forall mp, contour_in_multipolygon (aff_ctr m c) (aff_mp m mp) = contour_in_multipolygon c mp).
Proof. exact moved_contours_l. Qed.
Print Assumptions moved_contours.
Example moved_contours_occur :
  map (fun c => contour_in_polygon (aff_ctr shift c) (aff_pg shift cut_pg)) [left_c; loop_c; sqr 20 21; Ctr [P 1 1; P 2 1; P 1 2]] = [Ok ENCLOSED; Ok CROSS; Ok DISJOINT; Ok WITHIN]
  /\ contour_in_contour (aff_ctr shift tri_twice) (aff_ctr shift (sqr 0 9)) = Raise ValueError /\ contour_in_contour tri_twice (sqr 0 9) = Raise ValueError.
Proof. repeat (split; [vm_compute; reflexivity|]). vm_compute; reflexivity. Qed.

Theorem moved_areas : forall a b t u, 0 < a -> 0 < b -> let m := stretch a b t u in
  (forall r r', region_in_region (aff_ctr m r) (aff_ctr m r') = region_in_region r r')
  /\ (forall r rs, region_in_multiregion (aff_ctr m r) (aff_mr m rs) = region_in_multiregion r rs)
  /\ (forall rs rs', multiregion_in_multiregion (aff_mr m rs) (aff_mr m rs') = multiregion_in_multiregion rs rs')
  /\ (forall r pg, region_in_polygon (aff_ctr m r) (aff_pg m pg) = region_in_polygon r pg)
  /\ (forall rs pg, multiregion_in_polygon (aff_mr m rs) (aff_pg m pg) = multiregion_in_polygon rs pg)
  /\ (forall pg pg', polygon_in_polygon (aff_pg m pg) (aff_pg m pg') = polygon_in_polygon pg pg')
  /\ (forall r mp, region_in_multipolygon (aff_ctr m r) (aff_mp m mp) = region_in_multipolygon r mp)
  /\ (forall rs mp, multiregion_in_multipolygon (aff_mr m rs) (aff_mp m mp) = multiregion_in_multipolygon rs mp)
  /\ (forall pg mp, polygon_in_multipolygon (aff_pg m pg) (aff_mp m mp) = polygon_in_multipolygon pg mp)
  /\ (forall mp mp', multipolygon_in_multipolygon (aff_mp m mp) (aff_mp m mp') = multipolygon_in_multipolygon mp mp').
Proof. exact moved_areas_l. Qed.
Print Assumptions moved_areas.
Example moved_areas_occur :
  map (fun r => region_in_polygon (aff_ctr shift r) (aff_pg shift cut_pg)) [left_c; sqr 0 8; sqr 20 21; sqr 0 3; tri_twice] = map (fun r => region_in_polygon r cut_pg) [left_c; sqr 0 8; sqr 20 21; sqr 0 3; tri_twice]
  /\ map (fun r => region_in_polygon r cut_pg) [sqr 0 8; sqr 20 21; sqr 0 3; tri_twice] = [Ok ENCLOSES; Ok DISJOINT; Ok OVERLAP; Raise ValueError]
  /\ polygon_in_polygon (aff_pg shift left_p) (aff_pg shift upper_p) = Ok OVERLAP /\ polygon_in_multipolygon (aff_pg shift cut_pg) (aff_mp shift (MPoly [cut_pg])) = Ok EQUAL
  /\ multiregion_in_multiregion (aff_mr shift []) (aff_mr shift [sqr 0 1]) = Raise ValueError.
Proof. repeat (split; [vm_compute; reflexivity|]). vm_compute; reflexivity. Qed.

(** C59, continued. *)
Theorem multisegment_in_contour_affine : forall m, det m <> 0 -> forall ms c, valid_multisegment ms -> simple_contour c ->
  multisegment_in_contour (aff_ms m ms) (aff_ctr m c) = multisegment_in_contour ms c.
Proof. exact multisegment_in_contour_affine_l. Qed.
Print Assumptions multisegment_in_contour_affine.
Theorem multisegment_in_multisegment_affine : forall m ms k, det m <> 0 -> valid_multisegment ms -> valid_multisegment k -> at_most_two (segment_list ms) (segment_list k) ->
  multisegment_in_multisegment (aff_ms m ms) (aff_ms m k) = multisegment_in_multisegment ms k.
Proof. exact multisegment_in_multisegment_affine_l. Qed.
Print Assumptions multisegment_in_multisegment_affine.
Theorem multiregion_in_polygon_affine : forall m, det m <> 0 -> forall rs pg, valid_multiregion rs -> valid_polygon pg ->
  multiregion_in_polygon (aff_mr m rs) (aff_pg m pg) = multiregion_in_polygon rs pg.
Proof. exact multiregion_in_polygon_affine_l. Qed.
Print Assumptions multiregion_in_polygon_affine.
Theorem polygon_in_polygon_affine_always : forall m, det m <> 0 -> forall pt pg, valid_polygon pt -> valid_polygon pg ->
  polygon_in_polygon (aff_pg m pt) (aff_pg m pg) = polygon_in_polygon pt pg.
Proof. exact polygon_in_polygon_affine_always_l. Qed.
Print Assumptions polygon_in_polygon_affine_always.
Example affine_lines_occur : det mirror <> 0 /\ det shear <> 0
  /\ map (fun m => multisegment_in_contour (aff_ms m star2) (aff_ctr m (sqr 0 1))) [mirror; shear] = [Ok CROSS; Ok CROSS]
  /\ map (fun m => multisegment_in_multisegment (aff_ms m star2) (aff_ms m star2)) [mirror; shear] = [Ok EQUAL; Ok EQUAL]
  /\ map (fun m => multiregion_in_polygon (aff_mr m [left_c; right_c]) (aff_pg m cut_pg)) [mirror; shear] = [Ok ENCLOSED; Ok ENCLOSED]
  /\ map (fun m => polygon_in_polygon (aff_pg m left_p) (aff_pg m upper_p)) [mirror; shear] = [Ok OVERLAP; Ok OVERLAP].
Proof. split; [discriminate|]. split; [discriminate|]. repeat (split; [vm_compute; reflexivity|]). vm_compute; reflexivity. Qed.
