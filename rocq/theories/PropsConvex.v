(* Convex regions. *)
From Coq Require Import QArith Qcanon List Bool ZArith.
From Verif Require Import Scalar Base Ground MLinear MSweep MCompound Planar Spec SpecAreas SpecContact SpecBorders SpecConvex Witness RefuteProofs Convex Witness25.
Import ListNotations.
Open Scope Z_scope.

(** C75: what is in a convex region is told by the vertices. *)
Theorem convex_between : forall r, simple_contour r -> convex r -> forall p q x,
  point_in_region p r <> EXTERIOR -> point_in_region q r <> EXTERIOR -> on_segment p q x ->
  point_in_region x r <> EXTERIOR /\ (point_in_region p r = INTERIOR -> x <> q -> point_in_region x r = INTERIOR).
Proof. exact convex_between_l. Qed.
Print Assumptions convex_between.
Theorem segment_in_convex_within : forall r, simple_contour r -> convex r -> forall s, nondegenerate s ->
  (segment_in_region s r = Ok WITHIN <-> point_in_region (s_start s) r = INTERIOR /\ point_in_region (s_end s) r = INTERIOR).
Proof. exact segment_in_convex_within_l. Qed.
Print Assumptions segment_in_convex_within.
Theorem segment_in_convex : forall r, simple_contour r -> convex r -> forall s, nondegenerate s -> ends_settled s r ->
  point_in_region (s_start s) r <> EXTERIOR -> point_in_region (s_end s) r <> EXTERIOR -> ~ subset (in_segment s) (on_contour r) ->
  (point_in_region (s_start s) r = BOUNDARY \/ point_in_region (s_end s) r = BOUNDARY) -> segment_in_region s r = Ok ENCLOSED.
Proof. exact segment_in_convex_l. Qed.
Print Assumptions segment_in_convex.
Theorem segment_in_convex_contour : forall r, simple_contour r -> convex r -> forall s, nondegenerate s ->
  point_in_region (s_start s) r <> EXTERIOR -> point_in_region (s_end s) r <> EXTERIOR -> ~ subset (in_segment s) (on_contour r) ->
  segment_in_contour s r
  = Ok (if location_eqb (point_in_region (s_start s) r) BOUNDARY || location_eqb (point_in_region (s_end s) r) BOUNDARY then TOUCH else DISJOINT).
Proof. exact segment_in_convex_contour_l. Qed.
Print Assumptions segment_in_convex_contour.
Example convex_segment_occurs : simple_contour house /\ convex house /\ interior_on_left house /\ Forall nondegenerate house_segments
  /\ Forall (fun s => ~ subset (in_segment s) (on_contour house)) house_segments
  /\ map (fun s => (segment_in_region s house, segment_in_contour s house)) house_segments
     = [(Ok ENCLOSED, Ok TOUCH); (Ok ENCLOSED, Ok TOUCH); (Ok ENCLOSED, Ok TOUCH); (Ok ENCLOSED, Ok TOUCH); (Ok WITHIN, Ok DISJOINT)].
Proof. exact convex_segment_occurs_l. Qed.
(* Both ends on the contour, the rest inside, and the inside on the right. *)
Theorem convex_chord_refuted : exists s c, nondegenerate s /\ simple_contour c /\ convex c
  /\ point_in_region (s_start s) c = BOUNDARY /\ point_in_region (s_end s) c = BOUNDARY
  /\ (forall p, in_segment s p -> p <> s_start s -> p <> s_end s -> point_in_region p c = INTERIOR)
  /\ segment_in_region s c = Ok TOUCH.
Proof. exact convex_chord_refuted_l. Qed.
Print Assumptions convex_chord_refuted.

Theorem contour_in_convex : forall r, simple_contour r -> convex r -> forall c, simple_contour c -> exists rel, contour_in_region c r = Ok rel
  /\ (In rel [WITHIN; ENCLOSED; COMPONENT] <-> forall v, In v (vertices c) -> point_in_region v r <> EXTERIOR)
  /\ (rel = WITHIN <-> forall v, In v (vertices c) -> point_in_region v r = INTERIOR).
Proof. exact contour_in_convex_l. Qed.
Print Assumptions contour_in_convex.
Theorem region_in_convex : forall r, simple_contour r -> convex r -> forall c, simple_contour c -> exists rel, region_in_region c r = Ok rel
  /\ (In rel part_relations <-> forall v, In v (vertices c) -> point_in_region v r <> EXTERIOR)
  /\ (rel = WITHIN <-> forall v, In v (vertices c) -> point_in_region v r = INTERIOR).
Proof. exact region_in_convex_l. Qed.
Print Assumptions region_in_convex.
Theorem region_hull : forall c h, simple_contour c -> simple_contour h -> convex h ->
  incl (vertices h) (vertices c) -> (forall v, In v (vertices c) -> point_in_region v h <> EXTERIOR) ->
  exists rel, region_in_region c h = Ok rel /\ In rel [ENCLOSED; EQUAL] /\ (convex c -> rel = EQUAL).
Proof. exact region_hull_l. Qed.
Print Assumptions region_hull.
Theorem contour_hull : forall c h, simple_contour c -> simple_contour h -> convex h ->
  incl (vertices h) (vertices c) -> (forall v, In v (vertices c) -> point_in_region v h <> EXTERIOR) ->
  exists rel rel', contour_in_region c h = Ok rel /\ contour_in_contour c h = Ok rel' /\ In rel [ENCLOSED; COMPONENT] /\ In rel' [TOUCH; OVERLAP; EQUAL]
    /\ (convex c -> rel = COMPONENT /\ rel' = EQUAL).
Proof. exact contour_hull_l. Qed.
Print Assumptions contour_hull.
Example convex_contour_occurs : Forall simple_contour c_parts
  /\ map (fun c => (contour_in_region c house, region_in_region c house, contour_in_contour c house)) c_parts
     = [(Ok WITHIN, Ok WITHIN, Ok DISJOINT); (Ok ENCLOSED, Ok ENCLOSED, Ok OVERLAP); (Ok ENCLOSED, Ok ENCLOSED, Ok OVERLAP); (Ok COMPONENT, Ok EQUAL, Ok EQUAL); (Ok CROSS, Ok OVERLAP, Ok CROSS)]
  /\ incl (vertices house) (vertices dented) /\ (forall v, In v (vertices dented) -> point_in_region v house <> EXTERIOR).
Proof. exact convex_contour_occurs_l. Qed.

Theorem multisegment_in_convex : forall r, simple_contour r -> convex r -> forall m, valid_multisegment m -> exists rel, multisegment_in_region m r = Ok rel
  /\ (In rel [WITHIN; ENCLOSED; COMPONENT] <-> forall s, In s (segments m) -> point_in_region (s_start s) r <> EXTERIOR /\ point_in_region (s_end s) r <> EXTERIOR)
  /\ (rel = WITHIN <-> forall s, In s (segments m) -> point_in_region (s_start s) r = INTERIOR /\ point_in_region (s_end s) r = INTERIOR).
Proof. exact multisegment_in_convex_l. Qed.
Print Assumptions multisegment_in_convex.
Example convex_multisegment_occurs : Forall valid_multisegment m_parts /\ map (fun m => multisegment_in_region m house) m_parts = [Ok WITHIN; Ok ENCLOSED; Ok CROSS].
Proof. exact convex_multisegment_occurs_l. Qed.
Theorem multiregion_in_convex : forall r rs, simple_contour r -> convex r -> valid_multiregion rs -> rs <> [] -> exists rel, multiregion_in_multiregion rs [r] = Ok rel
  /\ (In rel part_relations <-> forall c v, In c rs -> In v (vertices c) -> point_in_region v r <> EXTERIOR).
Proof. exact multiregion_in_convex_l. Qed.
Print Assumptions multiregion_in_convex.
Theorem polygon_in_convex : forall r pg, simple_contour r -> convex r -> valid_polygon pg -> exists rel, polygon_in_polygon pg (Poly r []) = Ok rel
  /\ (In rel part_relations <-> forall v, In v (vertices (border pg)) -> point_in_region v r <> EXTERIOR).
Proof. exact polygon_in_convex_l. Qed.
Print Assumptions polygon_in_convex.
Example convex_areas_occur : valid_multiregion two_parts /\ valid_polygon holed_part
  /\ multiregion_in_multiregion two_parts [house] = Ok WITHIN /\ polygon_in_polygon holed_part (Poly house []) = Ok ENCLOSED.
Proof. exact convex_areas_occur_l. Qed.
