(* Property C84.  Statements only; the proofs are in LinesTold.v and Witness33.v. *)
From Coq Require Import QArith Qcanon List Bool ZArith.
From Verif Require Import Scalar Base Ground MLinear MSweep MCompound Planar Spec SpecAreas SpecMore SpecSides SpecAround RefuteProofs Witness16 LinesTold Witness33.
Import ListNotations.
Open Scope Qc_scope.

(** C84: what is answered for lines is told by their points.  Two lines with
    the same answers for points, however they are cut into segments and in
    whatever direction these go, get the same answers. *)
Theorem segment_in_multisegment_told : forall s s' m m',
  nondegenerate s -> nondegenerate s' -> valid_multisegment m -> valid_multisegment m' ->
  (forall p, point_in_segment p s = point_in_segment p s') -> (forall p, point_in_multisegment p m = point_in_multisegment p m') -> segment_in_multisegment s m = segment_in_multisegment s' m'.
Proof. exact segment_in_multisegment_depends_l. Qed.
Print Assumptions segment_in_multisegment_told.

(** Contours without straight vertices. *)
Theorem segment_in_cornered_contour_told : forall s s' c c',
  nondegenerate s -> nondegenerate s' -> simple_contour c -> simple_contour c' -> cornered c -> cornered c' ->
  (forall p, point_in_segment p s = point_in_segment p s') -> (forall p, point_in_contour p c = point_in_contour p c') -> segment_in_contour s c = segment_in_contour s' c'.
Proof. exact segment_in_contour_cornered_l. Qed.
Print Assumptions segment_in_cornered_contour_told.

(** With straight vertices COMPONENT and OVERLAP may be exchanged, and nothing
    else can change. *)
Theorem segment_in_contour_told : forall s s' c c',
  nondegenerate s -> nondegenerate s' -> simple_contour c -> simple_contour c' ->
  (forall p, point_in_segment p s = point_in_segment p s') -> (forall p, point_in_contour p c = point_in_contour p c') ->
  segment_in_contour s c = segment_in_contour s' c' \/ segment_in_contour s c = Ok OVERLAP /\ segment_in_contour s' c' = Ok COMPONENT \/ segment_in_contour s c = Ok COMPONENT /\ segment_in_contour s' c' = Ok OVERLAP.
Proof. exact segment_in_contour_depends_l. Qed.
Print Assumptions segment_in_contour_told.

Theorem multisegment_in_contour_told : forall m m' c c',
  valid_multisegment m -> valid_multisegment m' -> simple_contour c -> simple_contour c' ->
  (forall p, point_in_multisegment p m = point_in_multisegment p m') -> (forall p, point_in_contour p c = point_in_contour p c') -> multisegment_in_contour m c = multisegment_in_contour m' c'.
Proof. exact multisegment_in_contour_depends_l. Qed.
Print Assumptions multisegment_in_contour_told.

(** At points of both no more than two branches of the second start. *)
Theorem multisegments_told : forall m m' k k',
  valid_multisegment m -> valid_multisegment m' -> valid_multisegment k -> valid_multisegment k' -> at_most_two (segment_list m) (segment_list k) ->
  (forall p, point_in_multisegment p m = point_in_multisegment p m') -> (forall p, point_in_multisegment p k = point_in_multisegment p k') -> multisegment_in_multisegment m k = multisegment_in_multisegment m' k'.
Proof. exact multisegments_depend_l. Qed.
Print Assumptions multisegments_told.

(** The points of a contour tell which points are inside of it, whatever its
    vertices are, where they start and which way round they go. *)
Theorem insides_told : forall c c',
  simple_contour c -> simple_contour c' -> (forall p, point_in_contour p c = point_in_contour p c') -> forall p, point_in_region p c = point_in_region p c'.
Proof. exact region_of_ring. Qed.
Print Assumptions insides_told.

(** In areas: where the multisegment does not run around the area, and
    meets the edges at their ends only. *)
Theorem multisegment_in_region_told : forall m m' r r',
  valid_multisegment m -> valid_multisegment m' -> simple_contour r -> simple_contour r' -> ~ runs_around (in_multisegment m) (region_area r) ->
  (forall p, point_in_multisegment p m = point_in_multisegment p m') -> (forall p, point_in_region p r = point_in_region p r') -> multisegment_in_region m r = multisegment_in_region m' r'.
Proof. exact multisegment_in_region_depends_l. Qed.
Print Assumptions multisegment_in_region_told.

Theorem multisegment_in_polygon_told : forall m m' pg pg',
  valid_multisegment m -> valid_multisegment m' -> valid_polygon pg -> valid_polygon pg' -> ~ runs_around (in_multisegment m) (polygon_area pg) ->
  meet_at_ends (in_multisegment m) (polygon_edges pg) -> meet_at_ends (in_multisegment m') (polygon_edges pg') ->
  (forall p, point_in_multisegment p m = point_in_multisegment p m') -> (forall p, point_in_polygon p pg = point_in_polygon p pg') -> multisegment_in_polygon m pg = multisegment_in_polygon m' pg'.
Proof. exact multisegment_in_polygon_depends_l. Qed.
Print Assumptions multisegment_in_polygon_told.

Theorem contour_in_polygon_told : forall c c' pg pg',
  simple_contour c -> simple_contour c' -> valid_polygon pg -> valid_polygon pg' ->
  meet_at_ends (on_contour c) (contours_edges (holes pg)) -> meet_at_ends (on_contour c') (contours_edges (holes pg')) -> clear_border (on_contour c) pg -> clear_border (on_contour c') pg' ->
  (forall p, point_in_contour p c = point_in_contour p c') -> (forall p, point_in_polygon p pg = point_in_polygon p pg') -> contour_in_polygon c pg = contour_in_polygon c' pg'.
Proof. exact contour_in_polygon_depends_l. Qed.
Print Assumptions contour_in_polygon_told.

Theorem lines_in_multiregion_told : forall rs rs',
  valid_multiregion rs -> rs <> [] -> valid_multiregion rs' -> rs' <> [] -> (forall p, point_in_multiregion p rs = point_in_multiregion p rs') ->
  (forall s s', nondegenerate s -> nondegenerate s' -> (forall p, point_in_segment p s = point_in_segment p s') ->
     meet_at_ends (in_segment s) (contours_edges rs) -> meet_at_ends (in_segment s') (contours_edges rs') -> segment_in_multiregion s rs = segment_in_multiregion s' rs')
  /\ (forall c c', simple_contour c -> simple_contour c' -> (forall p, point_in_contour p c = point_in_contour p c') ->
     meet_at_ends (on_contour c) (contours_edges rs) -> meet_at_ends (on_contour c') (contours_edges rs') -> contour_in_multiregion c rs = contour_in_multiregion c' rs').
Proof. exact lines_in_multiregion_depend_l. Qed.
Print Assumptions lines_in_multiregion_told.

Theorem lines_in_multipolygon_told : forall mp mp',
  valid_multipolygon mp -> polygons mp <> [] -> valid_multipolygon mp' -> polygons mp' <> [] -> (forall p, point_in_multipolygon p mp = point_in_multipolygon p mp') ->
  (forall s s', nondegenerate s -> nondegenerate s' -> (forall p, point_in_segment p s = point_in_segment p s') ->
     meet_at_ends (in_segment s) (multipolygon_edges mp) -> meet_at_ends (in_segment s') (multipolygon_edges mp') -> segment_in_multipolygon s mp = segment_in_multipolygon s' mp')
  /\ (forall c c', simple_contour c -> simple_contour c' -> (forall p, point_in_contour p c = point_in_contour p c') ->
     meet_at_ends (on_contour c) (multipolygon_edges mp) -> meet_at_ends (on_contour c') (multipolygon_edges mp') -> contour_in_multipolygon c mp = contour_in_multipolygon c' mp').
Proof. exact lines_in_multipolygon_depend_l. Qed.
Print Assumptions lines_in_multipolygon_told.

Theorem multisegment_in_multiregion_told : forall m m' rs rs',
  valid_multisegment m -> valid_multisegment m' -> valid_multiregion rs -> rs <> [] -> valid_multiregion rs' -> rs' <> [] ->
  meet_at_ends (in_multisegment m) (contours_edges rs) -> meet_at_ends (in_multisegment m') (contours_edges rs') ->
  ~ runs_round (in_multisegment m) region_area (multiregion_area rs) rs -> ~ runs_round (in_multisegment m') region_area (multiregion_area rs') rs' ->
  (forall p, point_in_multisegment p m = point_in_multisegment p m') -> (forall p, point_in_multiregion p rs = point_in_multiregion p rs') -> multisegment_in_multiregion m rs = multisegment_in_multiregion m' rs'.
Proof. exact multisegment_in_multiregion_depends_l. Qed.
Print Assumptions multisegment_in_multiregion_told.

Theorem multisegment_in_multipolygon_told : forall m m' mp mp',
  valid_multisegment m -> valid_multisegment m' -> valid_multipolygon mp -> polygons mp <> [] -> valid_multipolygon mp' -> polygons mp' <> [] ->
  meet_at_ends (in_multisegment m) (multipolygon_edges mp) -> meet_at_ends (in_multisegment m') (multipolygon_edges mp') ->
  ~ runs_round (in_multisegment m) polygon_area (multipolygon_area mp) (polygons mp) -> ~ runs_round (in_multisegment m') polygon_area (multipolygon_area mp') (polygons mp') ->
  (forall p, point_in_multisegment p m = point_in_multisegment p m') -> (forall p, point_in_multipolygon p mp = point_in_multipolygon p mp') -> multisegment_in_multipolygon m mp = multisegment_in_multipolygon m' mp'.
Proof. exact multisegment_in_multipolygon_depends_l. Qed.
Print Assumptions multisegment_in_multipolygon_told.

(** Such lines and areas exist. *)
Example lines_told_occur : nondegenerate flat /\ nondegenerate flat_back /\ valid_multisegment zig /\ valid_multisegment zig_cut /\ simple_contour (sqr 0 4) /\ simple_contour sq_more /\ valid_multisegment hook /\ valid_multisegment hook_cut
  /\ (forall p, point_in_segment p flat = point_in_segment p flat_back) /\ (forall p, point_in_multisegment p zig = point_in_multisegment p zig_cut)
  /\ (forall p, point_in_contour p (sqr 0 4) = point_in_contour p sq_more) /\ (forall p, point_in_multisegment p hook = point_in_multisegment p hook_cut)
  /\ segment_in_multisegment flat zig = CROSS /\ multisegment_in_contour zig_cut sq_more = Ok CROSS /\ multisegment_in_multisegment zig_cut hook_cut = Ok CROSS /\ multisegment_in_region zig_cut sq_more = Ok CROSS
  /\ at_most_two (segment_list zig) (segment_list hook) /\ ~ runs_around (in_multisegment zig) (region_area (sqr 0 4)).
Proof. exact wit_lines. Qed.

Example lines_told_occur_areas : valid_multiregion two_squares /\ two_squares <> [] /\ valid_multiregion two_more /\ two_more <> [] /\ (forall p, point_in_multiregion p two_squares = point_in_multiregion p two_more)
  /\ valid_polygon hollow /\ valid_polygon hollow_more /\ (forall p, point_in_polygon p hollow = point_in_polygon p hollow_more)
  /\ valid_multipolygon (MPoly [hollow]) /\ valid_multipolygon (MPoly [hollow_more]) /\ (forall p, point_in_multipolygon p (MPoly [hollow]) = point_in_multipolygon p (MPoly [hollow_more]))
  /\ (forall X, meet_at_ends X (contours_edges two_squares) /\ meet_at_ends X (contours_edges two_more) /\ meet_at_ends X (polygon_edges hollow) /\ meet_at_ends X (polygon_edges hollow_more)
        /\ meet_at_ends X (multipolygon_edges (MPoly [hollow])) /\ meet_at_ends X (multipolygon_edges (MPoly [hollow_more]))
        /\ meet_at_ends X (contours_edges (holes hollow)) /\ meet_at_ends X (contours_edges (holes hollow_more)) /\ clear_border X hollow /\ clear_border X hollow_more)
  /\ ~ runs_round (in_multisegment zig) region_area (multiregion_area two_squares) two_squares /\ ~ runs_round (in_multisegment zig_cut) region_area (multiregion_area two_more) two_more
  /\ ~ runs_around (in_multisegment zig) (polygon_area hollow)
  /\ ~ runs_round (in_multisegment zig) polygon_area (multipolygon_area (MPoly [hollow])) [hollow] /\ ~ runs_round (in_multisegment zig_cut) polygon_area (multipolygon_area (MPoly [hollow_more])) [hollow_more]
  /\ segment_in_multiregion flat_back two_more = Ok COMPONENT /\ contour_in_multiregion sq_meet two_more = Ok COMPONENT /\ multisegment_in_multiregion zig_cut two_more = Ok CROSS
  /\ contour_in_polygon sq_meet hollow_more = Ok COMPONENT /\ multisegment_in_polygon zig_cut hollow_more = Ok CROSS
  /\ segment_in_multipolygon flat_back (MPoly [hollow_more]) = Ok COMPONENT /\ contour_in_multipolygon sq_meet (MPoly [hollow_more]) = Ok COMPONENT /\ multisegment_in_multipolygon zig_cut (MPoly [hollow_more]) = Ok CROSS.
Proof. exact wit_lines_areas. Qed.

(** Without those conditions the way of writing matters. *)
Theorem segment_in_contour_told_refuted : exists s c c', nondegenerate s /\ simple_contour c /\ simple_contour c' /\ (forall p, point_in_contour p c = point_in_contour p c')
  /\ segment_in_contour s c = Ok COMPONENT /\ segment_in_contour s c' = Ok OVERLAP /\ segment_in_region s c = Ok COMPONENT /\ segment_in_region s c' = Ok ENCLOSED.
Proof. exact segment_in_contour_depends_refuted_l. Qed.
Print Assumptions segment_in_contour_told_refuted.

Theorem contour_in_contour_told_refuted : exists c c' r, simple_contour c /\ simple_contour c' /\ simple_contour r /\ (forall p, point_in_contour p c = point_in_contour p c')
  /\ contour_in_contour c r = Ok CROSS /\ contour_in_contour c' r = Ok TOUCH.
Proof. exact contour_in_contour_depends_refuted_l. Qed.
Print Assumptions contour_in_contour_told_refuted.

Theorem multisegment_in_region_told_refuted : exists m m' r, valid_multisegment m /\ valid_multisegment m' /\ simple_contour r /\ (forall p, point_in_multisegment p m = point_in_multisegment p m')
  /\ multisegment_in_region m r = Ok CROSS /\ multisegment_in_region m' r = Ok TOUCH.
Proof. exact multisegment_in_region_depends_refuted_l. Qed.
Print Assumptions multisegment_in_region_told_refuted.
