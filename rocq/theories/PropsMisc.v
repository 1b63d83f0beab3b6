(* Properties C20, C22, C35, C36, C39 and C41.
   Statements only; the proofs are in EqualProofs.v, BoxProofs.v, HoleFree.v,
   RangeProofs.v and Check.v. *)
From Coq Require Import QArith Qcanon List Bool ZArith.
From Verif Require Import Scalar Base Ground MLinear Planar Spec PointProofs Check RangeProofs BoxProofs HoleFree EqualProofs Witness2.
Import ListNotations.
Open Scope Qc_scope.

(** C20 *)
Theorem contour_in_contour_same : forall c d,
  simple_contour d -> same_cycle (vertices d) (vertices c) -> contour_in_contour c d = Ok EQUAL.
Proof. exact contour_in_contour_same_l. Qed.
Print Assumptions contour_in_contour_same.
Theorem region_in_region_same : forall c d,
  simple_contour d -> same_cycle (vertices d) (vertices c) -> region_in_region c d = Ok EQUAL.
Proof. exact region_in_region_same_l. Qed.
Print Assumptions region_in_region_same.
Theorem contour_in_region_same : forall c d,
  simple_contour d -> same_cycle (vertices d) (vertices c) -> contour_in_region c d = Ok COMPONENT.
Proof. exact contour_in_region_same_l. Qed.
Print Assumptions contour_in_region_same.
(* The shortcut [contour.equal] itself accepts nothing else, valid or not. *)
Theorem contour_equal_only_same : forall c d,
  contour_equal c d = Ok true -> same_cycle (vertices c) (vertices d).
Proof. exact contour_equal_sound. Qed.
Print Assumptions contour_equal_only_same.
Example contour_same_case :
  simple_contour quad /\ same_cycle (vertices quad) (vertices quad_turned)
  /\ same_cycle (vertices quad) (vertices quad_back) /\ ~ same_cycle (vertices quad) [P 0 0; P 5 3; P 4 0; P 1 4].
Proof. exact wit_c20. Qed.

(** C22: geometries on different sides of an axis-parallel line are DISJOINT. *)
Theorem linear_separated : forall s l m c d,
  segments l <> [] -> segments m <> [] -> vertices c <> [] -> vertices d <> [] ->
  nondegenerate s -> Forall nondegenerate (segments m) -> edges_nondegenerate c ->
  (axis_separated (in_segment s) (in_multisegment m) -> segment_in_multisegment s m = DISJOINT)
  /\ (axis_separated (in_multisegment l) (in_multisegment m) -> multisegment_in_multisegment l m = Ok DISJOINT)
  /\ (axis_separated (in_segment s) (on_contour c) -> segment_in_contour s c = Ok DISJOINT)
  /\ (axis_separated (in_multisegment m) (on_contour c) -> multisegment_in_contour m c = Ok DISJOINT)
  /\ (axis_separated (on_contour d) (on_contour c) -> contour_in_contour d c = Ok DISJOINT).
Proof. exact linear_separated_l. Qed.
Print Assumptions linear_separated.
Theorem region_separated : forall s m c r,
  segments m <> [] -> vertices c <> [] -> vertices r <> [] -> nondegenerate s -> edges_nondegenerate r ->
  (axis_separated (in_segment s) (on_contour r) -> segment_in_region s r = Ok DISJOINT)
  /\ (axis_separated (in_multisegment m) (on_contour r) -> multisegment_in_region m r = Ok DISJOINT)
  /\ (axis_separated (on_contour c) (on_contour r) ->
      contour_in_region c r = Ok DISJOINT /\ region_in_region c r = Ok DISJOINT).
Proof. exact region_separated_l. Qed.
Print Assumptions region_separated.
Theorem multiregion_separated : forall s m c rs qs,
  segments m <> [] -> vertices c <> [] -> rs <> [] -> qs <> [] ->
  (forall r, In r rs -> vertices r <> []) -> (forall r, In r qs -> vertices r <> []) ->
  (axis_separated (in_segment s) (on_contours rs) -> segment_in_multiregion s rs = Ok DISJOINT)
  /\ (axis_separated (in_multisegment m) (on_contours rs) -> multisegment_in_multiregion m rs = Ok DISJOINT)
  /\ (axis_separated (on_contour c) (on_contours rs) ->
      contour_in_multiregion c rs = Ok DISJOINT /\ region_in_multiregion c rs = Ok DISJOINT)
  /\ (axis_separated (on_contours qs) (on_contours rs) -> multiregion_in_multiregion qs rs = Ok DISJOINT).
Proof. exact multiregion_separated_l. Qed.
Print Assumptions multiregion_separated.
Theorem polygon_separated : forall s m c rs b b' hs hs',
  segments m <> [] -> vertices c <> [] -> (forall r, In r rs -> vertices r <> []) ->
  vertices b <> [] -> vertices b' <> [] -> nondegenerate s -> edges_nondegenerate b ->
  let pg := Poly b hs in
  (axis_separated (in_segment s) (on_contour b) -> segment_in_polygon s pg = Ok DISJOINT)
  /\ (axis_separated (in_multisegment m) (on_contour b) -> multisegment_in_polygon m pg = Ok DISJOINT)
  /\ (axis_separated (on_contour c) (on_contour b) ->
      contour_in_polygon c pg = Ok DISJOINT /\ region_in_polygon c pg = Ok DISJOINT)
  /\ (axis_separated (on_contours rs) (on_contour b) -> multiregion_in_polygon rs pg = Ok DISJOINT)
  /\ (axis_separated (on_contour b') (on_contour b) -> polygon_in_polygon (Poly b' hs') pg = Ok DISJOINT).
Proof. exact polygon_separated_l. Qed.
Print Assumptions polygon_separated.
(* multipolygon_in_multipolygon has no box shortcut and is not covered. *)
Theorem multipolygon_separated : forall s m c rs pg mp,
  segments m <> [] -> vertices c <> [] -> rs <> [] -> (forall r, In r rs -> vertices r <> []) ->
  vertices (border pg) <> [] -> polygons mp <> [] -> (forall g, In g (polygons mp) -> vertices (border g) <> []) ->
  let bs := on_contours (map border (polygons mp)) in
  (axis_separated (in_segment s) bs -> segment_in_multipolygon s mp = Ok DISJOINT)
  /\ (axis_separated (in_multisegment m) bs -> multisegment_in_multipolygon m mp = Ok DISJOINT)
  /\ (axis_separated (on_contour c) bs ->
      contour_in_multipolygon c mp = Ok DISJOINT /\ region_in_multipolygon c mp = Ok DISJOINT)
  /\ (axis_separated (on_contours rs) bs -> multiregion_in_multipolygon rs mp = Ok DISJOINT)
  /\ (axis_separated (on_contour (border pg)) bs -> polygon_in_multipolygon pg mp = Ok DISJOINT).
Proof. exact multipolygon_separated_l. Qed.
Print Assumptions multipolygon_separated.
(* The box test answers exactly the question whether such a line exists. *)
Theorem boxes_disjoint_exact : forall c d, vertices c <> [] -> vertices d <> [] ->
  exists b b', contour_box c = Ok b /\ contour_box d = Ok b'
    /\ (disjoint_with b b' = true <-> axis_separated (on_contour c) (on_contour d)).
Proof. exact boxes_disjoint_l. Qed.
Print Assumptions boxes_disjoint_exact.
Example separated_case : axis_separated (on_contour quad) (on_contour (Ctr [P 6 1; P 9 1; P 9 3])).
Proof. exact wit_c22. Qed.

(** C35 *)
Theorem hole_free_polygon : forall p s m c d r rs,
  point_in_polygon p (Poly c []) = point_in_region p c
  /\ segment_in_polygon s (Poly c []) = segment_in_region s c
  /\ multisegment_in_polygon m (Poly c []) = multisegment_in_region m c
  /\ contour_in_polygon d (Poly c []) = contour_in_region d c
  /\ region_in_polygon r (Poly c []) = region_in_region r c
  /\ multiregion_in_polygon rs (Poly c [])
     = match region_in_multiregion c rs with Ok x => Ok (complement x) | Raise e => Raise e end
  /\ polygon_in_polygon (Poly d []) (Poly c []) = region_in_region d c.
Proof. exact hole_free_polygon_l. Qed.
Print Assumptions hole_free_polygon.
Theorem hole_free_multipolygon : forall p s m d rs cs,
  let mp := MPoly (map (fun c => Poly c []) cs) in
  point_in_multipolygon p mp = point_in_multiregion p cs
  /\ segment_in_multipolygon s mp = segment_in_multiregion s cs
  /\ multisegment_in_multipolygon m mp = multisegment_in_multiregion m cs
  /\ contour_in_multipolygon d mp = contour_in_multiregion d cs
  /\ region_in_multipolygon d mp = region_in_multiregion d cs
  /\ polygon_in_multipolygon (Poly d []) mp = region_in_multiregion d cs
  /\ multiregion_in_multipolygon rs mp = multiregion_in_multiregion rs cs.
Proof. exact hole_free_multipolygon_l. Qed.
Print Assumptions hole_free_multipolygon.

(** C36 *)
Theorem linear_range : forall (s t : segment) (l m : multisegment) (c d : contour),
  In (segment_in_segment s t) linear_relations
  /\ In (segment_in_multisegment s m) linear_relations
  /\ answers linear_relations (multisegment_in_multisegment l m)
  /\ answers linear_relations (segment_in_contour s c)
  /\ answers linear_relations (multisegment_in_contour m c)
  /\ answers linear_relations (contour_in_contour c d).
Proof. exact linear_range_l. Qed.
Print Assumptions linear_range.
Theorem linear_areal_range : forall s m c (r : region) rs pg mp,
  answers linear_areal_relations (segment_in_region s r)
  /\ answers linear_areal_relations (multisegment_in_region m r)
  /\ answers linear_areal_relations (contour_in_region c r)
  /\ answers linear_areal_relations (segment_in_multiregion s rs)
  /\ answers linear_areal_relations (multisegment_in_multiregion m rs)
  /\ answers linear_areal_relations (contour_in_multiregion c rs)
  /\ answers linear_areal_relations (segment_in_polygon s pg)
  /\ answers linear_areal_relations (multisegment_in_polygon m pg)
  /\ answers linear_areal_relations (contour_in_polygon c pg)
  /\ answers linear_areal_relations (segment_in_multipolygon s mp)
  /\ answers linear_areal_relations (multisegment_in_multipolygon m mp)
  /\ answers linear_areal_relations (contour_in_multipolygon c mp).
Proof. exact linear_areal_range_l. Qed.
Print Assumptions linear_areal_range.
Theorem areal_range : forall (r r' : region) rs rs' pg pg' mp mp',
  answers areal_relations (region_in_region r r')
  /\ answers areal_relations (region_in_multiregion r rs)
  /\ answers areal_relations (multiregion_in_multiregion rs rs')
  /\ answers areal_relations (region_in_polygon r pg)
  /\ answers areal_relations (multiregion_in_polygon rs pg)
  /\ answers areal_relations (polygon_in_polygon pg pg')
  /\ answers areal_relations (region_in_multipolygon r mp)
  /\ answers areal_relations (multiregion_in_multipolygon rs mp)
  /\ answers areal_relations (polygon_in_multipolygon pg mp)
  /\ answers areal_relations (multipolygon_in_multipolygon mp mp').
Proof. exact areal_range_l. Qed.
Print Assumptions areal_range.

(** C39: the orientation does not depend on the first vertex and turns with the
   order; that it tells the side of the interior is in PropsArea.v. *)
Theorem contour_orientation_rotate : forall l l', NoDup l -> rotation l l' ->
  contour_orientation (Ctr l') = contour_orientation (Ctr l).
Proof. exact contour_orientation_rotate_l. Qed.
Print Assumptions contour_orientation_rotate.
Theorem contour_orientation_reverse : forall l, NoDup l ->
  contour_orientation (Ctr (rev l)) = match contour_orientation (Ctr l) with
                                       | Ok o => Ok (turn_back o) | Raise e => Raise e end.
Proof. exact contour_orientation_reverse_l. Qed.
Print Assumptions contour_orientation_reverse.

(** C41 *)
Theorem point_in_region_escape : forall c p d,
  d <> Vec 0 0 -> (forall q, on_ray p d q -> ~ on_contour c q) -> point_in_region p c = EXTERIOR.
Proof. exact escape_exterior. Qed.
Print Assumptions point_in_region_escape.
