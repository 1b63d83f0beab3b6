(* Properties C32 and C47 to C50.  Statements only; the proofs are in Polygons.v
   and PolyQueries.v. *)
From Coq Require Import QArith Qcanon List Bool ZArith.
From Verif Require Import Scalar Base Ground MLinear MSweep MCompound Planar Spec SpecAreas PolyQueries Witness11.
Import ListNotations.
Open Scope Qc_scope.

(** C47: segments, multisegments and contours in multiregions and multipolygons
    whose edges meet, where the linear geometry passes, at ends of edges only. *)
Theorem segment_in_multiregion_exact : forall s rs, nondegenerate s -> valid_multiregion rs -> rs <> [] ->
  meet_at_ends (in_segment s) (contours_edges rs) ->
  answer_is (linear_areal_spec (in_segment s) (multiregion_area rs)) (segment_in_multiregion s rs).
Proof. exact segment_in_multiregion_exact_l. Qed.
Print Assumptions segment_in_multiregion_exact.
Theorem multisegment_in_multiregion_exact : forall m rs, valid_multisegment m -> valid_multiregion rs -> rs <> [] ->
  meet_at_ends (in_multisegment m) (contours_edges rs) ->
  (forall r, In r rs -> ~ runs_around (in_multisegment m) (region_area r)) ->
  answer_is (linear_areal_spec (in_multisegment m) (multiregion_area rs)) (multisegment_in_multiregion m rs).
Proof. exact multisegment_in_multiregion_exact_l. Qed.
Print Assumptions multisegment_in_multiregion_exact.
Theorem contour_in_multiregion_exact : forall c rs, simple_contour c -> valid_multiregion rs -> rs <> [] ->
  meet_at_ends (on_contour c) (contours_edges rs) ->
  answer_is (linear_areal_spec (on_contour c) (multiregion_area rs)) (contour_in_multiregion c rs).
Proof. exact contour_in_multiregion_exact_l. Qed.
Print Assumptions contour_in_multiregion_exact.
Example lines_in_multiregion_occur :
  valid_multiregion sq_and /\ sq_and <> [] /\ (forall X, meet_at_ends X (contours_edges sq_and))
  /\ Forall nondegenerate s_more
  /\ map (fun s => segment_in_multiregion s sq_and) s_more = [Ok WITHIN; Ok CROSS; Ok ENCLOSED; Ok COMPONENT; Ok TOUCH; Ok DISJOINT]
  /\ Forall valid_multisegment m_lines
  /\ (forall m r, In m m_lines -> In r sq_and -> ~ runs_around (in_multisegment m) (region_area r))
  /\ map (fun m => multisegment_in_multiregion m sq_and) m_lines = [Ok WITHIN; Ok ENCLOSED; Ok COMPONENT; Ok CROSS; Ok TOUCH; Ok DISJOINT]
  /\ Forall simple_contour c_more
  /\ map (fun c => contour_in_multiregion c sq_and) c_more = [Ok WITHIN; Ok COMPONENT; Ok CROSS; Ok TOUCH; Ok ENCLOSED; Ok DISJOINT].
Proof. exact wit_lines_multiregion. Qed.

Theorem segment_in_multipolygon_exact : forall s mp, nondegenerate s -> valid_multipolygon mp -> polygons mp <> [] ->
  meet_at_ends (in_segment s) (multipolygon_edges mp) ->
  answer_is (linear_areal_spec (in_segment s) (multipolygon_area mp)) (segment_in_multipolygon s mp).
Proof. exact segment_in_multipolygon_exact_l. Qed.
Print Assumptions segment_in_multipolygon_exact.
Theorem multisegment_in_multipolygon_exact : forall m mp, valid_multisegment m -> valid_multipolygon mp -> polygons mp <> [] ->
  meet_at_ends (in_multisegment m) (multipolygon_edges mp) ->
  (forall pg, In pg (polygons mp) -> ~ runs_around (in_multisegment m) (polygon_area pg)) ->
  answer_is (linear_areal_spec (in_multisegment m) (multipolygon_area mp)) (multisegment_in_multipolygon m mp).
Proof. exact multisegment_in_multipolygon_exact_l. Qed.
Print Assumptions multisegment_in_multipolygon_exact.
Theorem contour_in_multipolygon_exact : forall c mp, simple_contour c -> valid_multipolygon mp -> polygons mp <> [] ->
  meet_at_ends (on_contour c) (multipolygon_edges mp) ->
  answer_is (linear_areal_spec (on_contour c) (multipolygon_area mp)) (contour_in_multipolygon c mp).
Proof. exact contour_in_multipolygon_exact_l. Qed.
Print Assumptions contour_in_multipolygon_exact.
Example lines_in_multipolygon_occur :
  valid_multipolygon ring_and /\ polygons ring_and <> [] /\ (forall X, meet_at_ends X (multipolygon_edges ring_and))
  /\ Forall nondegenerate s_lines
  /\ map (fun s => segment_in_multipolygon s ring_and) s_lines
     = [Ok WITHIN; Ok CROSS; Ok ENCLOSED; Ok COMPONENT; Ok TOUCH; Ok DISJOINT; Ok CROSS]
  /\ Forall valid_multisegment m_lines
  /\ (forall m pg, In m m_lines -> In pg (polygons ring_and) -> ~ runs_around (in_multisegment m) (polygon_area pg))
  /\ map (fun m => multisegment_in_multipolygon m ring_and) m_lines
     = [Ok WITHIN; Ok ENCLOSED; Ok COMPONENT; Ok CROSS; Ok TOUCH; Ok DISJOINT]
  /\ Forall simple_contour c_lines
  /\ map (fun c => contour_in_multipolygon c ring_and) c_lines
     = [Ok WITHIN; Ok COMPONENT; Ok DISJOINT; Ok TOUCH; Ok CROSS; Ok ENCLOSED].
Proof. exact wit_lines_multipolygon. Qed.

(** C32 under the same condition; without it, it is false:
    segment_in_multiregion_refuted and segment_in_multipolygon_refuted. *)
Theorem segment_in_multiregion_covered_partial : forall s rs, nondegenerate s -> valid_multiregion rs -> rs <> [] ->
  meet_at_ends (in_segment s) (contours_edges rs) ->
  (forall p, in_segment s p -> exists r, In r rs /\ ~ outside r p) ->
  segment_in_multiregion s rs = Ok ENCLOSED \/ segment_in_multiregion s rs = Ok WITHIN \/ segment_in_multiregion s rs = Ok COMPONENT.
Proof. exact segment_in_multiregion_covered_l. Qed.
Print Assumptions segment_in_multiregion_covered_partial.
Theorem segment_in_multipolygon_covered_partial : forall s mp, nondegenerate s -> valid_multipolygon mp -> polygons mp <> [] ->
  meet_at_ends (in_segment s) (multipolygon_edges mp) ->
  (forall p, in_segment s p -> exists pg, In pg (polygons mp) /\ (polygon_interior pg p \/ polygon_boundary pg p)) ->
  segment_in_multipolygon s mp = Ok ENCLOSED \/ segment_in_multipolygon s mp = Ok WITHIN \/ segment_in_multipolygon s mp = Ok COMPONENT.
Proof. exact segment_in_multipolygon_covered_l. Qed.
Print Assumptions segment_in_multipolygon_covered_partial.

(** C48: multisegments in a polygon, likewise. *)
Theorem multisegment_in_polygon_exact : forall m pg, valid_multisegment m -> valid_polygon pg ->
  meet_at_ends (in_multisegment m) (polygon_edges pg) -> ~ runs_around (in_multisegment m) (polygon_area pg) ->
  answer_is (linear_areal_spec (in_multisegment m) (polygon_area pg)) (multisegment_in_polygon m pg).
Proof. exact multisegment_in_polygon_exact_l. Qed.
Print Assumptions multisegment_in_polygon_exact.
Example lines_in_polygon_occur :
  valid_polygon ring_q /\ (forall X, meet_at_ends X (polygon_edges ring_q)) /\ Forall valid_multisegment m_lines
  /\ (forall m, In m m_lines -> ~ runs_around (in_multisegment m) (polygon_area ring_q))
  /\ map (fun m => multisegment_in_polygon m ring_q) m_lines = [Ok WITHIN; Ok ENCLOSED; Ok COMPONENT; Ok CROSS; Ok TOUCH; Ok DISJOINT].
Proof. exact wit_lines_polygon. Qed.

(** C49: regions in multipolygons, without exceptions. *)
Theorem region_in_multipolygon_exact : forall r mp, simple_contour r -> valid_multipolygon mp -> polygons mp <> [] ->
  answer_is (areal_spec (region_area r) (multipolygon_area mp)) (region_in_multipolygon r mp).
Proof. exact region_in_multipolygon_exact_l. Qed.
Print Assumptions region_in_multipolygon_exact.

(** C50: the other areas in multipolygons, if the edges of one of the two meet,
    on the boundary of the other one, at ends of edges only. *)
Theorem polygon_in_multipolygon_exact : forall pg mp, valid_polygon pg -> valid_multipolygon mp -> polygons mp <> [] ->
  meet_at_ends (a_on (multipolygon_area mp)) (polygon_edges pg) \/ meet_at_ends (polygon_boundary pg) (multipolygon_edges mp) ->
  answer_is (areal_spec (polygon_area pg) (multipolygon_area mp)) (polygon_in_multipolygon pg mp).
Proof. exact polygon_in_multipolygon_exact_l. Qed.
Print Assumptions polygon_in_multipolygon_exact.
Theorem multiregion_in_multipolygon_exact : forall rs mp, valid_multiregion rs -> rs <> [] -> valid_multipolygon mp -> polygons mp <> [] ->
  meet_at_ends (a_on (multipolygon_area mp)) (contours_edges rs) \/ meet_at_ends (on_contours rs) (multipolygon_edges mp) ->
  answer_is (areal_spec (multiregion_area rs) (multipolygon_area mp)) (multiregion_in_multipolygon rs mp).
Proof. exact multiregion_in_multipolygon_exact_l. Qed.
Print Assumptions multiregion_in_multipolygon_exact.
Theorem multipolygon_in_multipolygon_exact : forall mp mq, valid_multipolygon mp -> polygons mp <> [] -> valid_multipolygon mq -> polygons mq <> [] ->
  meet_at_ends (a_on (multipolygon_area mq)) (multipolygon_edges mp) \/ meet_at_ends (a_on (multipolygon_area mp)) (multipolygon_edges mq) ->
  answer_is (areal_spec (multipolygon_area mp) (multipolygon_area mq)) (multipolygon_in_multipolygon mp mq).
Proof. exact multipolygon_in_multipolygon_exact_l. Qed.
Print Assumptions multipolygon_in_multipolygon_exact.
Example areas_in_multipolygon_occur :
  valid_multipolygon big_and /\ polygons big_and <> [] /\ (forall X, meet_at_ends X (multipolygon_edges big_and))
  /\ Forall simple_contour r_areas
  /\ map (fun r => region_in_multipolygon r big_and) r_areas
     = [Ok COMPONENT; Ok WITHIN; Ok ENCLOSED; Ok OVERLAP; Ok TOUCH; Ok DISJOINT; Ok ENCLOSES; Ok COVER]
  /\ Forall valid_polygon p_areas
  /\ map (fun pg => polygon_in_multipolygon pg big_and) p_areas
     = [Ok COMPONENT; Ok WITHIN; Ok ENCLOSED; Ok OVERLAP; Ok TOUCH; Ok DISJOINT; Ok ENCLOSES; Ok COVER]
  /\ Forall valid_multiregion mr_areas /\ Forall (fun rs => rs <> []) mr_areas
  /\ map (fun rs => multiregion_in_multipolygon rs big_and) mr_areas
     = [Ok WITHIN; Ok ENCLOSED; Ok COMPONENT; Ok TOUCH; Ok DISJOINT; Ok COVER; Ok OVERLAP]
  /\ Forall valid_multipolygon mp_areas /\ Forall (fun mp => polygons mp <> []) mp_areas
  /\ map (fun mp => multipolygon_in_multipolygon mp big_and) mp_areas
     = [Ok EQUAL; Ok COMPONENT; Ok WITHIN; Ok ENCLOSED; Ok OVERLAP; Ok TOUCH; Ok DISJOINT; Ok COMPOSITE; Ok COVER; Ok ENCLOSES].
Proof. exact wit_areas_multipolygon. Qed.
