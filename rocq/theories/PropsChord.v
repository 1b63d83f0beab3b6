(** C81: segments in regions and polygons, whether or not they run along the border. *)
From Coq Require Import QArith Qcanon List Bool.
From Verif Require Import Scalar Base Ground MLinear MSweep MCompound Planar Spec SpecAreas SpecAround SpecContact SpecMore SpecRings SpecNested SpecLines SpecChord RefuteProofs ChordProofs Witness31.
Import ListNotations.

(** segment_in_region answers the true relation but for the cases listed in [told_amiss]. *)
Theorem segment_in_region_amiss : forall s c, nondegenerate s -> simple_contour c ->
  exists rel y, segment_in_region s c = Ok rel /\ linear_areal_spec (in_segment s) (region_area c) y /\ (rel = y \/ told_amiss s c rel y).
Proof. exact segment_in_region_amiss_l. Qed.
Print Assumptions segment_in_region_amiss.
(** Each of them occurs: the segment, the region, the answer and the true relation. *)
Example amiss_occurs : Forall (fun t => match t with (s, c, rel, y) => nondegenerate s /\ simple_contour c /\ segment_in_region s c = Ok rel /\ linear_areal_spec (in_segment s) (region_area c) y end)
    [(Seg (P 1 0) (P 3 0), ledge, ENCLOSED, COMPONENT); (Seg (P 5 2) (P 1 2), elbow, TOUCH, CROSS); (Seg (P 1 2) (P 5 2), elbow, ENCLOSED, CROSS); (Seg (P 1 3) (P 5 3), cup, ENCLOSED, TOUCH);
     (Seg (P 2 0) (P 3 3), dent, ENCLOSED, TOUCH); (Seg (P 2 4) (P 2 2), notch, TOUCH, ENCLOSED); (Seg (P 0 0) (P 4 0), ledge_cw, TOUCH, COMPONENT)]
  /\ map contour_orientation [ledge; elbow; cup; dent; notch; ledge_cw] = [Ok CCW; Ok CCW; Ok CCW; Ok CW; Ok CW; Ok CW].
Proof. exact wit_amiss. Qed.

(** segment_in_polygon: CROSS only if there are points outside, COMPONENT only on the boundary and,
    with settled ends, TOUCH only if there are points outside. *)
Theorem segment_polygon_sides : forall s pg, nondegenerate s -> valid_polygon pg ->
  (segment_in_polygon s pg = Ok CROSS -> meets (in_segment s) (a_out (polygon_area pg)))
  /\ (segment_in_polygon s pg = Ok COMPONENT -> subset (in_segment s) (a_on (polygon_area pg)))
  /\ (ends_settled s (border pg) -> segment_in_polygon s pg = Ok TOUCH -> meets (in_segment s) (a_out (polygon_area pg))).
Proof. exact segment_polygon_sides_l. Qed.
Print Assumptions segment_polygon_sides.
Example polygon_sides_occur : valid_polygon (Poly ledge [sqr 1 2]) /\ Forall (fun s => nondegenerate s /\ ends_settled s ledge) [Seg (P (-1) 3) (P 5 3); Seg (P 0 0) (P 2 0); Seg (P 1 1) (P 2 1); Seg (P 3 0) (P 6 0)]
  /\ map (fun s => segment_in_polygon s (Poly ledge [sqr 1 2])) [Seg (P (-1) 3) (P 5 3); Seg (P 0 0) (P 2 0); Seg (P 1 1) (P 2 1); Seg (P 3 0) (P 6 0)] = [Ok CROSS; Ok COMPONENT; Ok COMPONENT; Ok TOUCH].
Proof. exact wit_polygon_sides. Qed.

(** A line that lies in an area is told so, whether or not it runs along the border. *)
Theorem line_covered : forall l a x, line_valid l -> geo_valid a -> line_ends_settled l a -> asked_line l a x -> subset (line_set l) (a_cl (geo_area a)) ->
  (exists r, x = Ok r /\ inside_relation r) \/ x = Ok CROSS /\ inside_missed l a.
Proof. exact line_covered_l. Qed.
Print Assumptions line_covered.
Example line_covered_occurs : line_valid (LSegment (Seg (P 1 0) (P 3 0))) /\ geo_valid (GRegion ledge) /\ geo_valid (GPolygon (Poly ledge [sqr 1 2])) /\ line_ends_settled (LSegment (Seg (P 1 0) (P 3 0))) (GRegion ledge)
  /\ line_ends_settled (LSegment (Seg (P 1 0) (P 3 0))) (GPolygon (Poly ledge [sqr 1 2])) /\ ~ line_settled (LSegment (Seg (P 1 0) (P 3 0))) (GRegion ledge)
  /\ subset (line_set (LSegment (Seg (P 1 0) (P 3 0)))) (a_cl (geo_area (GRegion ledge))) /\ segment_in_region (Seg (P 1 0) (P 3 0)) ledge = Ok ENCLOSED /\ segment_in_polygon (Seg (P 1 0) (P 3 0)) (Poly ledge [sqr 1 2]) = Ok ENCLOSED.
Proof. exact wit_covered. Qed.
(** [line_nested] for such lines. *)
Theorem line_nested_wide : forall l l' a b rel x x', line_valid l -> line_valid l' -> geo_valid a -> geo_valid b -> line_ends_settled l b -> line_settled l' a ->
  subset (line_set l) (line_set l') -> found a b rel -> part_relation rel -> asked_line l' a x' -> asked_line l b x -> (exists r, x' = Ok r /\ inside_relation r) ->
  (exists r, x = Ok r /\ inside_relation r) \/ x = Ok CROSS /\ inside_missed l b.
Proof. exact line_nested_wide_l. Qed.
Print Assumptions line_nested_wide.
