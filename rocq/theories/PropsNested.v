(** C79: what is answered for areas of different kinds, and in a row. *)
From Coq Require Import QArith Qcanon List Bool.
From Verif Require Import Scalar Base Ground MLinear MSweep MCompound Planar Spec SpecAreas SpecContact SpecMore SpecRings SpecNested RefuteProofs NestedProofs Witness29.
Import ListNotations.

(** Every query for two valid areas of any kinds answers; which relations it may answer
    for which true relation. *)
Theorem areas_answered : forall a b x, geo_valid a -> geo_valid b -> asked a b x -> exists rel y, x = Ok rel /\ areal_spec (geo_area a) (geo_area b) y /\ answered a b rel y.
Proof. exact areas_answered_l. Qed.
Print Assumptions areas_answered.
Example areas_answered_occurs : Forall geo_valid all_areas.
Proof. exact wit_all_areas. Qed.

(** DISJOINT is answered for areas without common points and for no others; an answer that
    says that one area is a part of the other one is right, and is given for every such
    pair but for the ones named. *)
Theorem areas_facts : forall a b x, geo_valid a -> geo_valid b -> asked a b x ->
  (x = Ok DISJOINT <-> ~ meets (a_cl (geo_area a)) (a_cl (geo_area b)))
  /\ ((exists r, x = Ok r /\ part_relation r) -> subset (a_cl (geo_area a)) (a_cl (geo_area b)))
  /\ (subset (a_cl (geo_area a)) (a_cl (geo_area b)) -> (exists r, x = Ok r /\ part_relation r) \/ x = Ok OVERLAP /\ part_missed a b)
  /\ ((exists r, x = Ok r /\ whole_relation r) -> subset (a_cl (geo_area b)) (a_cl (geo_area a)))
  /\ (subset (a_cl (geo_area b)) (a_cl (geo_area a)) -> (exists r, x = Ok r /\ whole_relation r) \/ (x = Ok OVERLAP \/ x = Ok ENCLOSED) /\ whole_missed a b).
Proof. exact areas_facts_l. Qed.
Print Assumptions areas_facts.

(** Parts of parts are found to be parts, whatever the kinds of the three areas are. *)
Theorem nested_areas : forall a b c rel rel' x, geo_valid a -> geo_valid b -> geo_valid c -> found a b rel -> part_relation rel -> found b c rel' -> part_relation rel' ->
  (asked a c x -> exists r, x = Ok r /\ (part_relation r \/ r = OVERLAP /\ part_missed a c))
  /\ (asked c a x -> exists r, x = Ok r /\ (whole_relation r \/ (r = OVERLAP \/ r = ENCLOSED) /\ whole_missed c a)).
Proof. exact nested_areas_l. Qed.
Print Assumptions nested_areas.
(** Parts of areas that do not meet do not meet; parts of areas that only touch at most touch. *)
Theorem nested_apart : forall a b c rel rel' x, geo_valid a -> geo_valid b -> geo_valid c -> found a b rel -> part_relation rel -> found b c rel' -> apart_relation rel' ->
  (asked a c x -> x = Ok DISJOINT \/ rel' = TOUCH /\ (x = Ok TOUCH \/ x = Ok OVERLAP /\ touch_missed a c))
  /\ (asked c a x -> x = Ok DISJOINT \/ rel' = TOUCH /\ (x = Ok TOUCH \/ x = Ok OVERLAP /\ touch_missed c a)).
Proof. exact nested_apart_l. Qed.
Print Assumptions nested_apart.
Example nested_occurs : found (GRegion (sqr 1 2)) (GMultiregion [sqr 1 2; sqr 3 4]) COMPONENT
  /\ found (GMultiregion [sqr 1 2; sqr 3 4]) (GPolygon (Poly (sqr 0 5) [sqr 2 3])) ENCLOSED
  /\ found (GPolygon (Poly (sqr 0 5) [sqr 2 3])) (GMultipolygon (MPoly [Poly (sqr (-1) 6) [sqr 2 3]; Poly (sqr 7 8) []])) ENCLOSED
  /\ found (GMultiregion [sqr 0 5; sqr 7 8]) (GPolygon (Poly (sqr 0 5) [sqr 2 3])) ENCLOSES
  /\ found (GPolygon (Poly (sqr 0 5) [sqr 2 3])) (GMultiregion [sqr 0 5; sqr 7 8]) ENCLOSED
  /\ found (GPolygon (Poly (sqr 0 5) [sqr 2 3])) (GRegion (sqr 20 21)) DISJOINT
  /\ found (GPolygon (Poly (sqr 0 5) [sqr 2 3])) (GRegion (sqr 2 3)) TOUCH.
Proof. exact wit_nested. Qed.

(** A multiregion and a multipolygon: only a multipolygon that is a part of the multiregion
    may be answered wrongly. *)
Theorem multiregion_in_multipolygon_mostly : forall rs mp, valid_multiregion rs -> rs <> [] -> valid_multipolygon mp -> polygons mp <> [] ->
  answer_is (areal_spec (multiregion_area rs) (multipolygon_area mp)) (multiregion_in_multipolygon rs mp)
  \/ multiregion_in_multipolygon rs mp = Ok OVERLAP /\ proper_part (multipolygon_area mp) (multiregion_area rs) /\ double_contact (contours_edges rs) (multipolygon_edges mp).
Proof. exact multiregion_in_multipolygon_mostly_l. Qed.
Print Assumptions multiregion_in_multipolygon_mostly.
(** ... and such answers exist. *)
Theorem multiregion_in_multipolygon_whole_refuted : exists rs mp, valid_multiregion rs /\ valid_multipolygon mp
  /\ areal_spec (multiregion_area rs) (multipolygon_area mp) ENCLOSES /\ multiregion_in_multipolygon rs mp = Ok OVERLAP.
Proof. exact (ex_intro _ _ (ex_intro _ _ wit_torn_whole)). Qed.
Print Assumptions multiregion_in_multipolygon_whole_refuted.
(** A polygon that is equal to a multipolygon that is a part of another one need not be found
    to be a part of that one. *)
Theorem nested_polygon_refuted : exists pg mp mq, valid_polygon pg /\ (valid_multipolygon mp /\ polygons mp <> []) /\ (valid_multipolygon mq /\ polygons mq <> [])
  /\ asked (GPolygon pg) (GMultipolygon mp) (Ok EQUAL) /\ asked (GMultipolygon mp) (GMultipolygon mq) (Ok ENCLOSED) /\ asked (GPolygon pg) (GMultipolygon mq) (Ok OVERLAP)
  /\ areal_spec (polygon_area pg) (multipolygon_area mq) ENCLOSED.
Proof. exact (ex_intro _ _ (ex_intro _ _ (ex_intro _ _ wit_torn))). Qed.
Print Assumptions nested_polygon_refuted.
