(** C82: segments in regions whose vertices are listed clockwise. *)
From Coq Require Import QArith Qcanon List Bool.
From Verif Require Import Scalar Base Ground MLinear MSweep MCompound Planar Spec SpecAreas SpecAround SpecContact SpecMore SpecRings SpecNested SpecLines SpecChord SpecClockwise RefuteProofs ClockwiseProofs Witness32.
Import ListNotations.

(** What segment_in_region answers if the inside is not on the left: the same as [segment_region_spec]
    says, but at vertices the last of which is overlooked and others are seen only at certain places
    of the list. *)
Theorem segment_clockwise_told : forall s c, nondegenerate s -> simple_contour c -> ~ interior_on_left c ->
  (both_ends_on s c -> known_end c (s_start s) /\ known_end c (s_end s)) -> answer_is (segment_clockwise_spec s c) (segment_in_region s c).
Proof. exact segment_clockwise_l. Qed.
Print Assumptions segment_clockwise_told.
Example clockwise_occurs : simple_contour crown /\ ~ interior_on_left crown /\ Forall (fun s => nondegenerate s /\ known_end crown (s_start s) /\ known_end crown (s_end s)) crown_lines
  /\ map (fun s => segment_in_region s crown) crown_lines = [Ok TOUCH; Ok TOUCH; Ok ENCLOSED; Ok ENCLOSED; Ok TOUCH; Ok TOUCH; Ok COMPONENT; Ok CROSS; Ok DISJOINT; Ok WITHIN].
Proof. exact wit_clockwise. Qed.

(** For all ends: at the vertex [i] of [n] the one at the place [n - i - 3] is taken for the next one. *)
Theorem segment_clockwise_full : forall s c, nondegenerate s -> simple_contour c -> ~ interior_on_left c -> answer_is (segment_clockwise_full_spec s c) (segment_in_region s c).
Proof. exact segment_clockwise_full_l. Qed.
Print Assumptions segment_clockwise_full.
Example clockwise_full_occurs : simple_contour house_cw /\ ~ interior_on_left house_cw /\ nondegenerate (Seg (P 0 0) (P 1 5)) /\ nondegenerate (Seg (P 0 0) (P 4 4)) /\ looked_at house_cw (P 0 0) (P 2 6)
  /\ told_off house_cw (P 0 0) (P 1 5) /\ segment_in_region (Seg (P 0 0) (P 1 5)) house_cw = Ok TOUCH /\ segment_in_region (Seg (P 0 0) (P 4 4)) house_cw = Ok ENCLOSED.
Proof. exact wit_full. Qed.

(** At known ends TOUCH is not answered for segments that lie in the region, and such segments are
    told to lie in it, in whichever order the vertices are listed. *)
Theorem known_ends_touch : forall s c, nondegenerate s -> simple_contour c -> known_end c (s_start s) -> known_end c (s_end s) ->
  segment_in_region s c = Ok TOUCH -> meets (in_segment s) (outside c).
Proof. exact known_touch_l. Qed.
Print Assumptions known_ends_touch.
Theorem known_ends_covered : forall s c, nondegenerate s -> simple_contour c -> known_end c (s_start s) -> known_end c (s_end s) ->
  subset (in_segment s) (a_cl (region_area c)) -> exists r, segment_in_region s c = Ok r /\ inside_relation r.
Proof. exact known_covered_l. Qed.
Print Assumptions known_ends_covered.

(** So it is for all segments in triangles and quadrilaterals, and in polygons with such a border. *)
Theorem few_vertices : forall s c, nondegenerate s -> simple_contour c -> (length (vertices c) <= 4)%nat ->
  (segment_in_region s c = Ok TOUCH -> meets (in_segment s) (outside c))
  /\ (subset (in_segment s) (a_cl (region_area c)) -> exists r, segment_in_region s c = Ok r /\ inside_relation r).
Proof. exact few_vertices_l. Qed.
Print Assumptions few_vertices.
Example few_vertices_occur : simple_contour dent /\ ~ interior_on_left dent /\ length (vertices dent) = 4%nat /\ segment_in_region (Seg (P 1 2) (P 2 0)) dent = Ok COMPONENT
  /\ segment_in_region (Seg (P 1 2) (P 2 2)) dent = Ok ENCLOSED /\ segment_in_region (Seg (P 0 2) (P 1 2)) dent = Ok TOUCH /\ segment_in_region (Seg (P 2 0) (P 3 3)) dent = Ok ENCLOSED
  /\ linear_areal_spec (in_segment (Seg (P 1 2) (P 2 2))) (region_area dent) ENCLOSED /\ linear_areal_spec (in_segment (Seg (P 2 0) (P 3 3))) (region_area dent) TOUCH.
Proof. exact wit_few. Qed.
Theorem few_vertices_polygon : forall s pg, nondegenerate s -> valid_polygon pg -> (length (vertices (border pg)) <= 4)%nat ->
  (segment_in_polygon s pg = Ok TOUCH -> meets (in_segment s) (a_out (polygon_area pg)))
  /\ (subset (in_segment s) (a_cl (polygon_area pg)) -> exists r, segment_in_polygon s pg = Ok r /\ inside_relation r).
Proof. exact few_vertices_polygon_l. Qed.
Print Assumptions few_vertices_polygon.
Example few_vertices_polygon_occur : valid_polygon (Poly (Ctr [P 0 0; P 0 4; P 4 4; P 4 0]) [sqr 1 2]) /\ segment_in_polygon (Seg (P 0 0) (P 4 0)) (Poly (Ctr [P 0 0; P 0 4; P 4 4; P 4 0]) [sqr 1 2]) = Ok COMPONENT
  /\ segment_in_polygon (Seg (P 0 4) (P 1 1)) (Poly (Ctr [P 0 0; P 0 4; P 4 4; P 4 0]) [sqr 1 2]) = Ok ENCLOSED /\ segment_in_polygon (Seg (P 0 4) (P 0 6)) (Poly (Ctr [P 0 0; P 0 4; P 4 4; P 4 0]) [sqr 1 2]) = Ok TOUCH.
Proof. exact wit_few_polygon. Qed.
(** Five vertices are too many. *)
Example five_vertices : simple_contour house_cw /\ length (vertices house_cw) = 5%nat /\ nondegenerate (Seg (P 0 0) (P 1 5)) /\ linear_areal_spec (in_segment (Seg (P 0 0) (P 1 5))) (region_area house_cw) ENCLOSED
  /\ segment_in_region (Seg (P 0 0) (P 1 5)) house_cw = Ok TOUCH.
Proof. exact wit_five. Qed.
