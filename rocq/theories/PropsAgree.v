(* What the relation queries have in common: they agree with the point queries and with each other. *)
From Coq Require Import QArith Qcanon List Bool ZArith Permutation.
From Verif Require Import Scalar Base Ground MLinear MSweep MCompound Planar Spec SpecAreas SpecMore Consequences Agree RefuteProofs Witness6 Witness10 Witness11 Witness12 Witness13.
Import ListNotations.
Open Scope Qc_scope.

(** C55: the relation queries agree with the point queries: the answer is the
    relation of the areas drawn by asking for the location of every point. *)
Theorem region_in_region_located : forall c r, simple_contour c -> simple_contour r ->
  answer_is (areal_spec (located_area (fun p => point_in_region p c)) (located_area (fun p => point_in_region p r))) (region_in_region c r).
Proof. exact region_located_l. Qed.
Print Assumptions region_in_region_located.
Theorem contour_in_region_located : forall c r, simple_contour c -> simple_contour r ->
  answer_is (linear_areal_spec (fun p => point_in_contour p c = BOUNDARY) (located_area (fun p => point_in_region p r))) (contour_in_region c r).
Proof. exact contour_located_l. Qed.
Print Assumptions contour_in_region_located.
Theorem multiregion_in_multiregion_located : forall qs rs, valid_multiregion qs -> qs <> [] -> valid_multiregion rs -> rs <> [] ->
  answer_is (areal_spec (located_area (fun p => point_in_multiregion p qs)) (located_area (fun p => point_in_multiregion p rs))) (multiregion_in_multiregion qs rs)
  /\ (forall r, simple_contour r -> answer_is (areal_spec (located_area (fun p => point_in_region p r)) (located_area (fun p => point_in_multiregion p rs))) (region_in_multiregion r rs)).
Proof. exact multiregion_located_l. Qed.
Print Assumptions multiregion_in_multiregion_located.
Theorem region_in_multipolygon_located : forall r mp, simple_contour r -> valid_multipolygon mp -> polygons mp <> [] ->
  answer_is (areal_spec (located_area (fun p => point_in_region p r)) (located_area (fun p => point_in_multipolygon p mp))) (region_in_multipolygon r mp).
Proof. exact region_multipolygon_located_l. Qed.
Print Assumptions region_in_multipolygon_located.
Theorem multipolygon_in_multipolygon_located : forall mp mq, valid_multipolygon mp -> polygons mp <> [] -> valid_multipolygon mq -> polygons mq <> [] ->
  meet_at_ends (a_on (multipolygon_area mq)) (multipolygon_edges mp) \/ meet_at_ends (a_on (multipolygon_area mp)) (multipolygon_edges mq) ->
  answer_is (areal_spec (located_area (fun p => point_in_multipolygon p mp)) (located_area (fun p => point_in_multipolygon p mq))) (multipolygon_in_multipolygon mp mq).
Proof. exact multipolygon_located_l. Qed.
Print Assumptions multipolygon_in_multipolygon_located.
Theorem polygon_in_polygon_located : forall pt pg, valid_polygon pt -> valid_polygon pg ->
  clear_rings (polygon_boundary pt) pg -> clear_rings (polygon_boundary pg) pt -> no_touching_holes pt pg -> no_touching_holes pg pt ->
  answer_is (areal_spec (located_area (fun p => point_in_polygon p pt)) (located_area (fun p => point_in_polygon p pg))) (polygon_in_polygon pt pg).
Proof. exact polygon_located_l. Qed.
Print Assumptions polygon_in_polygon_located.

(** C56: geometries with the same locations have the same relations, however
    they are written down. *)
Theorem region_relations_depend : forall c c' r r', simple_contour c -> simple_contour c' -> simple_contour r -> simple_contour r' ->
  (forall p, point_in_region p c = point_in_region p c') -> (forall p, point_in_region p r = point_in_region p r') ->
  region_in_region c r = region_in_region c' r' /\ contour_in_region c r = contour_in_region c' r'.
Proof. exact region_depends_l. Qed.
Print Assumptions region_relations_depend.
Theorem multiregion_relations_depend : forall qs qs' rs rs', valid_multiregion qs -> qs <> [] -> valid_multiregion qs' -> qs' <> [] ->
  valid_multiregion rs -> rs <> [] -> valid_multiregion rs' -> rs' <> [] ->
  (forall p, point_in_multiregion p qs = point_in_multiregion p qs') -> (forall p, point_in_multiregion p rs = point_in_multiregion p rs') ->
  multiregion_in_multiregion qs rs = multiregion_in_multiregion qs' rs'.
Proof. exact multiregion_depends_l. Qed.
Print Assumptions multiregion_relations_depend.
Theorem region_in_polygon_depends : forall r r' pg pg', simple_contour r -> simple_contour r' -> valid_polygon pg -> valid_polygon pg' ->
  (forall p, point_in_region p r = point_in_region p r') -> (forall p, point_in_polygon p pg = point_in_polygon p pg') ->
  region_in_polygon r pg = region_in_polygon r' pg'.
Proof. exact region_polygon_depends_l. Qed.
Print Assumptions region_in_polygon_depends.
Theorem region_in_multipolygon_depends : forall r r' mp mp', simple_contour r -> simple_contour r' ->
  valid_multipolygon mp -> polygons mp <> [] -> valid_multipolygon mp' -> polygons mp' <> [] ->
  (forall p, point_in_region p r = point_in_region p r') -> (forall p, point_in_multipolygon p mp = point_in_multipolygon p mp') ->
  region_in_multipolygon r mp = region_in_multipolygon r' mp'.
Proof. exact region_multipolygon_depends_l. Qed.
Print Assumptions region_in_multipolygon_depends.
Example same_locations_occur : simple_contour (sqr 0 12) /\ simple_contour sq_split /\ (forall p, point_in_region p (sqr 0 12) = point_in_region p sq_split)
  /\ map (fun r => region_in_region r sq_split) (sqr 0 12 :: r_areas) = [Ok EQUAL; Ok TOUCH; Ok WITHIN; Ok ENCLOSED; Ok WITHIN; Ok WITHIN; Ok WITHIN; Ok ENCLOSES; Ok COVER]
  /\ map (fun c => contour_in_region c sq_split) (sqr 0 12 :: r_areas) = [Ok COMPONENT; Ok TOUCH; Ok WITHIN; Ok ENCLOSED; Ok WITHIN; Ok WITHIN; Ok WITHIN; Ok TOUCH; Ok DISJOINT].
Proof. exact wit_same_locations. Qed.

(** C57: a collection of one part is related as the part. *)
Theorem region_in_one_region : forall r q, simple_contour r -> simple_contour q -> region_in_multiregion r [q] = region_in_region r q.
Proof. exact region_in_one_l. Qed.
Print Assumptions region_in_one_region.
Theorem contour_in_one_region : forall c q, simple_contour c -> simple_contour q -> contour_in_multiregion c [q] = contour_in_region c q.
Proof. exact contour_in_one_l. Qed.
Print Assumptions contour_in_one_region.
Theorem one_region_in_multiregion : forall r qs, simple_contour r -> valid_multiregion qs -> qs <> [] -> multiregion_in_multiregion [r] qs = region_in_multiregion r qs.
Proof. exact one_in_multiregion_l. Qed.
Print Assumptions one_region_in_multiregion.
Theorem one_region_in_multipolygon : forall r mp, simple_contour r -> valid_multipolygon mp -> polygons mp <> [] ->
  multiregion_in_multipolygon [r] mp = region_in_multipolygon r mp /\ polygon_in_multipolygon (Poly r []) mp = region_in_multipolygon r mp.
Proof. exact one_in_multipolygon_l. Qed.
Print Assumptions one_region_in_multipolygon.
Theorem one_polygon_in_multipolygon : forall pg mp, valid_polygon pg -> valid_multipolygon mp -> polygons mp <> [] ->
  meet_at_ends (a_on (multipolygon_area mp)) (polygon_edges pg) \/ meet_at_ends (polygon_boundary pg) (multipolygon_edges mp) ->
  multipolygon_in_multipolygon (MPoly [pg]) mp = polygon_in_multipolygon pg mp.
Proof. exact polygon_one_in_multipolygon_l. Qed.
Print Assumptions one_polygon_in_multipolygon.
Theorem region_in_one_polygon : forall r pg, simple_contour r -> valid_polygon pg ->
  exists rel, region_in_multipolygon r (MPoly [pg]) = Ok rel /\ region_in_polygon r pg = Ok (merge_component rel).
Proof. exact region_in_one_polygon_l. Qed.
Print Assumptions region_in_one_polygon.
Theorem one_region_in_polygon : forall r pg, simple_contour r -> valid_polygon pg -> clear_border (on_contour r) pg -> multiregion_in_polygon [r] pg = region_in_polygon r pg.
Proof. exact one_region_in_polygon_l. Qed.
Print Assumptions one_region_in_polygon.
(* It is not so for segments in regions, and for polygons in polygons. *)
Theorem segment_in_one_region_refuted : exists s r, nondegenerate s /\ simple_contour r
  /\ segment_in_region s r = Ok TOUCH /\ segment_in_multiregion s [r] = Ok ENCLOSED.
Proof. exact segment_in_one_refuted_l. Qed.
Print Assumptions segment_in_one_region_refuted.
Theorem polygon_in_one_polygon_refuted : exists l r, valid_polygon l /\ valid_polygon r
  /\ polygon_in_polygon l r = Ok WITHIN /\ polygon_in_multipolygon l (MPoly [r]) = Ok ENCLOSED /\ multipolygon_in_multipolygon (MPoly [l]) (MPoly [r]) = Ok ENCLOSED.
Proof. exact polygon_in_one_refuted_l. Qed.
Print Assumptions polygon_in_one_polygon_refuted.

(** C58: exchanging two polygons, or two multipolygons, complements the relation. *)
Theorem polygon_swap : forall pt pg, valid_polygon pt -> valid_polygon pg ->
  exists rel, polygon_in_polygon pt pg = Ok rel /\ polygon_in_polygon pg pt = Ok (complement rel).
Proof. exact polygon_swap_l. Qed.
Print Assumptions polygon_swap.
Theorem multipolygon_swap : forall mp mq, valid_multipolygon mp -> polygons mp <> [] -> valid_multipolygon mq -> polygons mq <> [] ->
  meet_at_ends (a_on (multipolygon_area mq)) (multipolygon_edges mp) \/ meet_at_ends (a_on (multipolygon_area mp)) (multipolygon_edges mq) ->
  exists rel, multipolygon_in_multipolygon mp mq = Ok rel /\ multipolygon_in_multipolygon mq mp = Ok (complement rel).
Proof. exact multipolygon_swap_l. Qed.
Print Assumptions multipolygon_swap.
Example one_part_occurs : Forall simple_contour r_areas /\ Forall valid_polygon p_areas /\ valid_polygon big_ring
  /\ map (fun r => region_in_multiregion r [sqr 0 12]) r_areas = [Ok TOUCH; Ok WITHIN; Ok ENCLOSED; Ok WITHIN; Ok WITHIN; Ok WITHIN; Ok ENCLOSES; Ok COVER]
  /\ map (fun r => region_in_multipolygon r (MPoly [big_ring])) r_areas = [Ok TOUCH; Ok WITHIN; Ok ENCLOSED; Ok OVERLAP; Ok TOUCH; Ok DISJOINT; Ok ENCLOSES; Ok COVER]
  /\ map (fun pg => polygon_in_polygon big_ring pg) p_areas = [Ok EQUAL; Ok COVER; Ok ENCLOSES; Ok OVERLAP; Ok TOUCH; Ok DISJOINT; Ok ENCLOSED; Ok WITHIN].
Proof. exact wit_one_part. Qed.

(** C59: affine maps of the plane do not change the relations. *)
Theorem segment_relations_affine : forall m s t ms c, det m <> 0 -> nondegenerate s -> nondegenerate t -> valid_multisegment ms -> simple_contour c ->
  segment_in_segment (aff_seg m s) (aff_seg m t) = segment_in_segment s t
  /\ segment_in_multisegment (aff_seg m s) (aff_ms m ms) = segment_in_multisegment s ms
  /\ segment_in_contour (aff_seg m s) (aff_ctr m c) = segment_in_contour s c.
Proof. exact segment_affine_l. Qed.
Print Assumptions segment_relations_affine.
Theorem region_relations_affine : forall m c r, det m <> 0 -> simple_contour c -> simple_contour r ->
  region_in_region (aff_ctr m c) (aff_ctr m r) = region_in_region c r /\ contour_in_region (aff_ctr m c) (aff_ctr m r) = contour_in_region c r
  /\ contour_in_contour (aff_ctr m c) (aff_ctr m r) = contour_in_contour c r.
Proof. exact region_affine_l. Qed.
Print Assumptions region_relations_affine.
Theorem multisegment_in_region_affine : forall m ms r, det m <> 0 -> valid_multisegment ms -> simple_contour r ->
  ~ runs_around (in_multisegment ms) (region_area r) ->
  multisegment_in_region (aff_ms m ms) (aff_ctr m r) = multisegment_in_region ms r.
Proof. exact multisegment_affine_l. Qed.
Print Assumptions multisegment_in_region_affine.
Theorem multiregion_relations_affine : forall m qs rs, det m <> 0 -> valid_multiregion qs -> qs <> [] -> valid_multiregion rs -> rs <> [] ->
  multiregion_in_multiregion (aff_mr m qs) (aff_mr m rs) = multiregion_in_multiregion qs rs
  /\ (forall r, simple_contour r -> region_in_multiregion (aff_ctr m r) (aff_mr m rs) = region_in_multiregion r rs).
Proof. exact multiregion_affine_l. Qed.
Print Assumptions multiregion_relations_affine.
Theorem polygon_relations_affine : forall m r pg mp, det m <> 0 -> simple_contour r -> valid_polygon pg -> valid_multipolygon mp -> polygons mp <> [] ->
  region_in_polygon (aff_ctr m r) (aff_pg m pg) = region_in_polygon r pg /\ region_in_multipolygon (aff_ctr m r) (aff_mp m mp) = region_in_multipolygon r mp.
Proof. exact polygon_affine_l. Qed.
Print Assumptions polygon_relations_affine.
Theorem polygon_in_polygon_affine : forall m pt pg, det m <> 0 -> valid_polygon pt -> valid_polygon pg ->
  clear_rings (polygon_boundary pt) pg -> clear_rings (polygon_boundary pg) pt -> no_touching_holes pt pg -> no_touching_holes pg pt ->
  polygon_in_polygon (aff_pg m pt) (aff_pg m pg) = polygon_in_polygon pt pg.
Proof. exact polygons_affine_l. Qed.
Print Assumptions polygon_in_polygon_affine.
Theorem multipolygon_in_multipolygon_affine : forall m mp mq, det m <> 0 -> valid_multipolygon mp -> polygons mp <> [] -> valid_multipolygon mq -> polygons mq <> [] ->
  meet_at_ends (a_on (multipolygon_area mq)) (multipolygon_edges mp) \/ meet_at_ends (a_on (multipolygon_area mp)) (multipolygon_edges mq) ->
  multipolygon_in_multipolygon (aff_mp m mp) (aff_mp m mq) = multipolygon_in_multipolygon mp mq.
Proof. exact multipolygons_affine_l. Qed.
Print Assumptions multipolygon_in_multipolygon_affine.
(* It is not so for segments in regions: mirroring changes the answer. *)
Theorem segment_in_region_mirror_refuted : exists m s r, det m <> 0 /\ nondegenerate s /\ simple_contour r
  /\ segment_in_region s r = Ok TOUCH /\ segment_in_region (aff_seg m s) (aff_ctr m r) = Ok ENCLOSED.
Proof. exact segment_in_region_mirror_refuted_l. Qed.
Print Assumptions segment_in_region_mirror_refuted.
Example affine_areas_occur : det mirror <> 0 /\ det shear <> 0
  /\ valid_multipolygon big_and /\ polygons big_and <> [] /\ Forall simple_contour r_areas
  /\ map (fun r => region_in_multipolygon (aff_ctr mirror r) (aff_mp mirror big_and)) r_areas = [Ok COMPONENT; Ok WITHIN; Ok ENCLOSED; Ok OVERLAP; Ok TOUCH; Ok DISJOINT; Ok ENCLOSES; Ok COVER]
  /\ map (fun r => region_in_multipolygon (aff_ctr shear r) (aff_mp shear big_and)) r_areas = [Ok COMPONENT; Ok WITHIN; Ok ENCLOSED; Ok OVERLAP; Ok TOUCH; Ok DISJOINT; Ok ENCLOSES; Ok COVER].
Proof. exact wit_affine_areas. Qed.

(** C60: two relations in a row: parts of parts are parts, parts of areas that are
    apart are apart, and equal areas have equal relations. *)
Theorem region_chain : forall a b c ab bc ac, simple_contour a -> simple_contour b -> simple_contour c ->
  region_in_region a b = Ok ab -> region_in_region b c = Ok bc -> region_in_region a c = Ok ac -> chains ab bc ac.
Proof. exact region_chain_l. Qed.
Print Assumptions region_chain.
Theorem multiregion_chain : forall a b c ab bc ac, valid_multiregion a -> a <> [] -> valid_multiregion b -> b <> [] -> valid_multiregion c -> c <> [] ->
  multiregion_in_multiregion a b = Ok ab -> multiregion_in_multiregion b c = Ok bc -> multiregion_in_multiregion a c = Ok ac -> chains ab bc ac.
Proof. exact multiregion_chain_l. Qed.
Print Assumptions multiregion_chain.
Theorem region_multipolygon_chain : forall a b mp ab bc ac, simple_contour a -> simple_contour b -> valid_multipolygon mp -> polygons mp <> [] ->
  region_in_region a b = Ok ab -> region_in_multipolygon b mp = Ok bc -> region_in_multipolygon a mp = Ok ac -> chains ab bc ac.
Proof. exact region_multipolygon_chain_l. Qed.
Print Assumptions region_multipolygon_chain.
Example chain_occurs : Forall simple_contour [sqr 1 3; sqr 0 4; sqr 0 12; sqr 5 7; big_tri]
  /\ region_in_region (sqr 1 3) (sqr 0 4) = Ok WITHIN /\ region_in_region (sqr 0 4) (sqr 0 12) = Ok ENCLOSED /\ region_in_region (sqr 1 3) (sqr 0 12) = Ok WITHIN
  /\ region_in_region (sqr 0 4) (sqr 5 7) = Ok DISJOINT /\ region_in_region (sqr 1 3) (sqr 5 7) = Ok DISJOINT
  /\ region_in_region (sqr 5 7) (sqr 0 12) = Ok WITHIN /\ region_in_region (sqr 0 12) big_tri = Ok TOUCH /\ region_in_region (sqr 5 7) big_tri = Ok DISJOINT.
Proof. exact wit_chain. Qed.

(** C61: the order of regions, holes and polygons does not matter. *)
Theorem multiregion_relations_order : forall qs qs' rs rs', valid_multiregion qs -> qs <> [] -> valid_multiregion rs -> rs <> [] -> Permutation qs qs' -> Permutation rs rs' ->
  multiregion_in_multiregion qs' rs' = multiregion_in_multiregion qs rs /\ (forall r, simple_contour r -> region_in_multiregion r rs' = region_in_multiregion r rs).
Proof. exact multiregion_order_l. Qed.
Print Assumptions multiregion_relations_order.
Theorem region_in_polygon_order : forall r b hs hs', simple_contour r -> valid_polygon (Poly b hs) -> Permutation hs hs' -> region_in_polygon r (Poly b hs') = region_in_polygon r (Poly b hs).
Proof. exact polygon_order_l. Qed.
Print Assumptions region_in_polygon_order.
Theorem region_in_multipolygon_order : forall r l l', simple_contour r -> valid_multipolygon (MPoly l) -> l <> [] -> Permutation l l' ->
  region_in_multipolygon r (MPoly l') = region_in_multipolygon r (MPoly l).
Proof. exact multipolygon_order_l. Qed.
Print Assumptions region_in_multipolygon_order.
Example order_occurs : valid_multiregion sq_and /\ sq_and <> [] /\ Permutation sq_and (rev sq_and) /\ rev sq_and <> sq_and
  /\ valid_polygon (Poly (sqr 0 12) [sqr 1 2; sqr 4 8]) /\ Permutation [sqr 1 2; sqr 4 8] [sqr 4 8; sqr 1 2]
  /\ map (fun r => region_in_polygon r (Poly (sqr 0 12) [sqr 4 8; sqr 1 2])) r_areas = [Ok TOUCH; Ok OVERLAP; Ok OVERLAP; Ok OVERLAP; Ok TOUCH; Ok DISJOINT; Ok ENCLOSES; Ok COVER].
Proof. exact wit_order. Qed.
