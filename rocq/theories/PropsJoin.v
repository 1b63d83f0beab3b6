(* Property C70: what the answers for two collections say about the answer for
   both collections together. *)
From Coq Require Import QArith Qcanon List Bool.
From Verif Require Import Scalar Base Ground MLinear MSweep MCompound Planar Spec SpecAreas SpecJoin JoinQueries Witness11 RefuteProofs Witness20.
Import ListNotations.
Open Scope Qc_scope.

(** Areas put together. *)
Theorem multiregions_joined : forall qs rs cs, valid_multiregion (qs ++ rs) -> qs <> [] -> rs <> [] -> valid_multiregion cs -> cs <> [] ->
  exists x y z, multiregion_in_multiregion qs cs = Ok x /\ multiregion_in_multiregion rs cs = Ok y
    /\ multiregion_in_multiregion (qs ++ rs) cs = Ok z /\ In z (joined_areas x y).
Proof. exact multiregions_joined_l. Qed.
Print Assumptions multiregions_joined.
(* The results that are listed occur. *)
Example multiregions_joined_occurs : Forall (fun t => let '(a, b, c, (x, y, z)) := t in
  valid_multiregion (a ++ b) /\ valid_multiregion c /\ multiregion_in_multiregion a c = Ok x /\ multiregion_in_multiregion b c = Ok y
  /\ multiregion_in_multiregion (a ++ b) c = Ok z) area_trials.
Proof. exact area_trials_ok. Qed.
Theorem joined_multiregions : forall qs rs cs c, valid_multiregion (qs ++ rs) -> qs <> [] -> rs <> [] -> valid_multiregion cs -> cs <> [] -> simple_contour c ->
  (exists x y z, multiregion_in_multiregion cs qs = Ok (complement x) /\ multiregion_in_multiregion cs rs = Ok (complement y)
    /\ multiregion_in_multiregion cs (qs ++ rs) = Ok (complement z) /\ In z (joined_areas x y))
  /\ (exists x y z, region_in_multiregion c qs = Ok (complement x) /\ region_in_multiregion c rs = Ok (complement y)
    /\ region_in_multiregion c (qs ++ rs) = Ok (complement z) /\ In z (joined_areas x y)).
Proof. exact multiregions_joined_to_l. Qed.
Print Assumptions joined_multiregions.
Theorem region_in_joined : forall c ps qs, simple_contour c -> valid_multipolygon (MPoly (ps ++ qs)) -> ps <> [] -> qs <> [] ->
  exists x y z, region_in_multipolygon c (MPoly ps) = Ok (complement x) /\ region_in_multipolygon c (MPoly qs) = Ok (complement y)
    /\ region_in_multipolygon c (MPoly (ps ++ qs)) = Ok (complement z) /\ In z (joined_areas x y).
Proof. exact region_multipolygons_joined_l. Qed.
Print Assumptions region_in_joined.
Theorem polygon_in_joined : forall pg ps qs, valid_polygon pg -> valid_multipolygon (MPoly (ps ++ qs)) -> ps <> [] -> qs <> [] ->
  meet_at_ends (a_on (multipolygon_area (MPoly (ps ++ qs)))) (polygon_edges pg) \/ meet_at_ends (polygon_boundary pg) (multipolygon_edges (MPoly (ps ++ qs))) ->
  exists x y z, polygon_in_multipolygon pg (MPoly ps) = Ok (complement x) /\ polygon_in_multipolygon pg (MPoly qs) = Ok (complement y)
    /\ polygon_in_multipolygon pg (MPoly (ps ++ qs)) = Ok (complement z) /\ In z (joined_areas x y).
Proof. exact polygon_multipolygons_joined_l. Qed.
Print Assumptions polygon_in_joined.
Theorem multiregion_in_joined : forall rs ps qs, valid_multiregion rs -> rs <> [] -> valid_multipolygon (MPoly (ps ++ qs)) -> ps <> [] -> qs <> [] ->
  meet_at_ends (a_on (multipolygon_area (MPoly (ps ++ qs)))) (contours_edges rs) \/ meet_at_ends (on_contours rs) (multipolygon_edges (MPoly (ps ++ qs))) ->
  exists x y z, multiregion_in_multipolygon rs (MPoly ps) = Ok (complement x) /\ multiregion_in_multipolygon rs (MPoly qs) = Ok (complement y)
    /\ multiregion_in_multipolygon rs (MPoly (ps ++ qs)) = Ok (complement z) /\ In z (joined_areas x y).
Proof. exact multiregion_multipolygons_joined_l. Qed.
Print Assumptions multiregion_in_joined.
Theorem multipolygons_joined : forall ps qs mp, valid_multipolygon (MPoly (ps ++ qs)) -> ps <> [] -> qs <> [] -> valid_multipolygon mp -> polygons mp <> [] ->
  meet_at_ends (a_on (multipolygon_area mp)) (multipolygon_edges (MPoly (ps ++ qs))) \/ meet_at_ends (a_on (multipolygon_area (MPoly (ps ++ qs)))) (multipolygon_edges mp) ->
  (exists x y z, multipolygon_in_multipolygon (MPoly ps) mp = Ok x /\ multipolygon_in_multipolygon (MPoly qs) mp = Ok y
    /\ multipolygon_in_multipolygon (MPoly (ps ++ qs)) mp = Ok z /\ In z (joined_areas x y))
  /\ exists x y z, multipolygon_in_multipolygon mp (MPoly ps) = Ok (complement x) /\ multipolygon_in_multipolygon mp (MPoly qs) = Ok (complement y)
    /\ multipolygon_in_multipolygon mp (MPoly (ps ++ qs)) = Ok (complement z) /\ In z (joined_areas x y).
Proof. exact multipolygons_joined_l. Qed.
Print Assumptions multipolygons_joined.
Example multipolygons_joined_occurs : valid_multipolygon (MPoly ([ring_q] ++ [Poly corner_t []]))
  /\ meet_at_ends (a_on (multipolygon_area ring_and)) (multipolygon_edges (MPoly ([ring_q] ++ [Poly corner_t []])))
  /\ multipolygon_in_multipolygon (MPoly [ring_q]) ring_and = Ok COMPONENT /\ multipolygon_in_multipolygon (MPoly [Poly corner_t []]) ring_and = Ok COMPONENT
  /\ multipolygon_in_multipolygon (MPoly ([ring_q] ++ [Poly corner_t []])) ring_and = Ok EQUAL
  /\ region_in_multipolygon (sqr 0 8) (MPoly [ring_q]) = Ok ENCLOSES /\ region_in_multipolygon (sqr 0 8) (MPoly [Poly corner_t []]) = Ok TOUCH
  /\ region_in_multipolygon (sqr 0 8) ring_and = Ok OVERLAP
  /\ segment_in_multipolygon (Seg (P 7 7) (P 9 9)) (MPoly [ring_q]) = Ok CROSS /\ segment_in_multipolygon (Seg (P 7 7) (P 9 9)) (MPoly [Poly corner_t []]) = Ok TOUCH
  /\ segment_in_multipolygon (Seg (P 7 7) (P 9 9)) ring_and = Ok ENCLOSED.
Proof. exact wit_polygons. Qed.

(** Segments and contours against areas put together. *)
Theorem segment_in_joined_regions : forall s qs rs, nondegenerate s -> valid_multiregion (qs ++ rs) -> qs <> [] -> rs <> [] ->
  meet_at_ends (in_segment s) (contours_edges (qs ++ rs)) ->
  exists x y z, segment_in_multiregion s qs = Ok x /\ segment_in_multiregion s rs = Ok y /\ segment_in_multiregion s (qs ++ rs) = Ok z /\ In z (joined_lines x y).
Proof. exact segments_in_multiregions_l. Qed.
Print Assumptions segment_in_joined_regions.
Example segment_in_joined_occurs : Forall (fun t => let '(s, a, b, (x, y, z)) := t in
  nondegenerate s /\ valid_multiregion (a ++ b) /\ meet_at_ends (in_segment s) (contours_edges (a ++ b))
  /\ segment_in_multiregion s a = Ok x /\ segment_in_multiregion s b = Ok y /\ segment_in_multiregion s (a ++ b) = Ok z) line_trials.
Proof. exact line_trials_ok. Qed.
Theorem contour_in_joined_regions : forall c qs rs, simple_contour c -> valid_multiregion (qs ++ rs) -> qs <> [] -> rs <> [] ->
  meet_at_ends (on_contour c) (contours_edges (qs ++ rs)) ->
  exists x y z, contour_in_multiregion c qs = Ok x /\ contour_in_multiregion c rs = Ok y /\ contour_in_multiregion c (qs ++ rs) = Ok z /\ In z (joined_lines x y).
Proof. exact contours_in_multiregions_l. Qed.
Print Assumptions contour_in_joined_regions.
Theorem segment_in_joined_polygons : forall s ps qs, nondegenerate s -> valid_multipolygon (MPoly (ps ++ qs)) -> ps <> [] -> qs <> [] ->
  meet_at_ends (in_segment s) (multipolygon_edges (MPoly (ps ++ qs))) ->
  exists x y z, segment_in_multipolygon s (MPoly ps) = Ok x /\ segment_in_multipolygon s (MPoly qs) = Ok y
    /\ segment_in_multipolygon s (MPoly (ps ++ qs)) = Ok z /\ In z (joined_lines x y).
Proof. exact segments_in_multipolygons_l. Qed.
Print Assumptions segment_in_joined_polygons.
Theorem contour_in_joined_polygons : forall c ps qs, simple_contour c -> valid_multipolygon (MPoly (ps ++ qs)) -> ps <> [] -> qs <> [] ->
  meet_at_ends (on_contour c) (multipolygon_edges (MPoly (ps ++ qs))) ->
  exists x y z, contour_in_multipolygon c (MPoly ps) = Ok x /\ contour_in_multipolygon c (MPoly qs) = Ok y
    /\ contour_in_multipolygon c (MPoly (ps ++ qs)) = Ok z /\ In z (joined_lines x y).
Proof. exact contours_in_multipolygons_l. Qed.
Print Assumptions contour_in_joined_polygons.

(** Segments put together. *)
Theorem segments_joined_in_region : forall ss ts r, valid_multisegment (MSeg (ss ++ ts)) -> (2 <= length ss)%nat -> (2 <= length ts)%nat -> simple_contour r ->
  ~ runs_around (in_multisegment (MSeg (ss ++ ts))) (region_area r) ->
  exists x y, multisegment_in_region (MSeg ss) r = Ok x /\ multisegment_in_region (MSeg ts) r = Ok y
    /\ multisegment_in_region (MSeg (ss ++ ts)) r = Ok (joined_pieces x y).
Proof. exact pieces_in_region_l. Qed.
Print Assumptions segments_joined_in_region.
Theorem segments_joined_in_multiregion : forall ss ts rs, valid_multisegment (MSeg (ss ++ ts)) -> (2 <= length ss)%nat -> (2 <= length ts)%nat ->
  valid_multiregion rs -> rs <> [] -> meet_at_ends (in_multisegment (MSeg (ss ++ ts))) (contours_edges rs) ->
  (forall r, In r rs -> ~ runs_around (in_multisegment (MSeg (ss ++ ts))) (region_area r)) ->
  exists x y, multisegment_in_multiregion (MSeg ss) rs = Ok x /\ multisegment_in_multiregion (MSeg ts) rs = Ok y
    /\ multisegment_in_multiregion (MSeg (ss ++ ts)) rs = Ok (joined_pieces x y).
Proof. exact pieces_in_multiregion_l. Qed.
Print Assumptions segments_joined_in_multiregion.
Theorem segments_joined_in_polygon : forall ss ts pg, valid_multisegment (MSeg (ss ++ ts)) -> (2 <= length ss)%nat -> (2 <= length ts)%nat -> valid_polygon pg ->
  meet_at_ends (in_multisegment (MSeg (ss ++ ts))) (polygon_edges pg) -> ~ runs_around (in_multisegment (MSeg (ss ++ ts))) (polygon_area pg) ->
  exists x y, multisegment_in_polygon (MSeg ss) pg = Ok x /\ multisegment_in_polygon (MSeg ts) pg = Ok y
    /\ multisegment_in_polygon (MSeg (ss ++ ts)) pg = Ok (joined_pieces x y).
Proof. exact pieces_in_polygon_l. Qed.
Print Assumptions segments_joined_in_polygon.
Example segments_joined_in_polygon_occurs :
  let ss := [Seg (P 0 0) (P 4 0); Seg (P 0 0) (P 0 4)] in let ts := [Seg (P 1 1) (P 1 2); Seg (P 1 2) (P 1 3)] in
  valid_multisegment (MSeg (ss ++ ts)) /\ valid_polygon ring_q /\ meet_at_ends (in_multisegment (MSeg (ss ++ ts))) (polygon_edges ring_q)
  /\ multisegment_in_polygon (MSeg ss) ring_q = Ok COMPONENT /\ multisegment_in_polygon (MSeg ts) ring_q = Ok WITHIN
  /\ multisegment_in_polygon (MSeg (ss ++ ts)) ring_q = Ok ENCLOSED.
Proof. exact wit_pieces. Qed.
Theorem segments_joined_in_multipolygon : forall ss ts mp, valid_multisegment (MSeg (ss ++ ts)) -> (2 <= length ss)%nat -> (2 <= length ts)%nat ->
  valid_multipolygon mp -> polygons mp <> [] -> meet_at_ends (in_multisegment (MSeg (ss ++ ts))) (multipolygon_edges mp) ->
  (forall pg, In pg (polygons mp) -> ~ runs_around (in_multisegment (MSeg (ss ++ ts))) (polygon_area pg)) ->
  exists x y, multisegment_in_multipolygon (MSeg ss) mp = Ok x /\ multisegment_in_multipolygon (MSeg ts) mp = Ok y
    /\ multisegment_in_multipolygon (MSeg (ss ++ ts)) mp = Ok (joined_pieces x y).
Proof. exact pieces_in_multipolygon_l. Qed.
Print Assumptions segments_joined_in_multipolygon.
Theorem segments_joined_in_lines : forall ss ts m c, valid_multisegment (MSeg (ss ++ ts)) -> (2 <= length ss)%nat -> (2 <= length ts)%nat ->
  valid_multisegment m -> simple_contour c ->
  (exists x y z, multisegment_in_multisegment (MSeg ss) m = Ok x /\ multisegment_in_multisegment (MSeg ts) m = Ok y
    /\ multisegment_in_multisegment (MSeg (ss ++ ts)) m = Ok z /\ In z (joined_segments x y))
  /\ (exists x y z, multisegment_in_contour (MSeg ss) c = Ok x /\ multisegment_in_contour (MSeg ts) c = Ok y
    /\ multisegment_in_contour (MSeg (ss ++ ts)) c = Ok z /\ In z (joined_segments x y))
  /\ (exists x y z, multisegment_in_multisegment m (MSeg ss) = Ok (complement x) /\ multisegment_in_multisegment m (MSeg ts) = Ok (complement y)
    /\ multisegment_in_multisegment m (MSeg (ss ++ ts)) = Ok (complement z) /\ In z (joined_segments x y)).
Proof. exact pieces_in_lines_l. Qed.
Print Assumptions segments_joined_in_lines.
Example segments_joined_occurs : Forall (fun t => let '(a, b, c, (x, y, z)) := t in
  valid_multisegment (MSeg (a ++ b)) /\ valid_multisegment (MSeg c)
  /\ multisegment_in_multisegment (MSeg a) (MSeg c) = Ok x /\ multisegment_in_multisegment (MSeg b) (MSeg c) = Ok y
  /\ multisegment_in_multisegment (MSeg (a ++ b)) (MSeg c) = Ok z) segment_trials.
Proof. exact segment_trials_ok. Qed.
