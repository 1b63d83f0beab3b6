(* Property C91.  Statements only; the proofs are in PolySame.v and Witness40.v. *)
From Coq Require Import QArith Qcanon List Bool ZArith.
From Verif Require Import Scalar Base Ground MLinear MSweep MCompound Planar Spec SpecAreas SpecAround RefuteProofs PolySame Witness12 Witness22 Witness40.
Import ListNotations.
Open Scope Qc_scope.

(** C91: the answers for polygons and multiregions depend on the locations of points only, whatever rings touch. *)
Theorem polygon_in_polygon_depends : forall pt pt' pg pg', valid_polygon pt -> valid_polygon pt' -> valid_polygon pg -> valid_polygon pg' ->
  (forall p, point_in_polygon p pt = point_in_polygon p pt') -> (forall p, point_in_polygon p pg = point_in_polygon p pg') -> polygon_in_polygon pt pg = polygon_in_polygon pt' pg'.
Proof. exact polygons_depend_l. Qed.
Print Assumptions polygon_in_polygon_depends.
Theorem multiregion_in_polygon_depends : forall rs rs' pg pg', valid_multiregion rs -> rs <> [] -> valid_multiregion rs' -> rs' <> [] -> valid_polygon pg -> valid_polygon pg' ->
  (forall p, point_in_multiregion p rs = point_in_multiregion p rs') -> (forall p, point_in_polygon p pg = point_in_polygon p pg') -> multiregion_in_polygon rs pg = multiregion_in_polygon rs' pg'.
Proof. exact multiregion_depends_l. Qed.
Print Assumptions multiregion_in_polygon_depends.
(** Of contours only CROSS and TOUCH can be exchanged, and only if one of them cuts an edge of a hole and the other one does not. *)
Theorem contour_in_polygon_depends : forall c c' pg pg', simple_contour c -> simple_contour c' -> valid_polygon pg -> valid_polygon pg' ->
  (forall p, point_in_contour p c = point_in_contour p c') -> (forall p, point_in_polygon p pg = point_in_polygon p pg') ->
  (contour_in_polygon c pg = contour_in_polygon c' pg'
  \/ contour_in_polygon c pg = Ok TOUCH /\ contour_in_polygon c' pg' = Ok CROSS \/ contour_in_polygon c pg = Ok CROSS /\ contour_in_polygon c' pg' = Ok TOUCH)
  /\ ((cut_by (contours_edges [c]) (contours_edges (holes pg)) <-> cut_by (contours_edges [c']) (contours_edges (holes pg'))) -> contour_in_polygon c pg = contour_in_polygon c' pg').
Proof. exact contour_depends_l. Qed.
Print Assumptions contour_in_polygon_depends.
Example same_points_occur : valid_polygon cut_pg /\ valid_polygon cut_more /\ (forall p, point_in_polygon p cut_pg = point_in_polygon p cut_more)
  /\ valid_polygon left_p /\ valid_polygon left_most /\ valid_polygon upper_p /\ (forall p, point_in_polygon p left_p = point_in_polygon p left_most)
  /\ polygon_in_polygon left_p upper_p = Ok OVERLAP /\ polygon_in_polygon left_most upper_p = Ok OVERLAP
  /\ valid_multiregion [left_c; right_c] /\ valid_multiregion [left_more; right_c] /\ (forall p, point_in_multiregion p [left_c; right_c] = point_in_multiregion p [left_more; right_c])
  /\ multiregion_in_polygon [left_c; right_c] cut_pg = Ok ENCLOSED /\ multiregion_in_polygon [left_more; right_c] cut_more = Ok ENCLOSED
  /\ simple_contour left_c /\ simple_contour left_more /\ (forall p, point_in_contour p left_c = point_in_contour p left_more)
  /\ contour_in_polygon left_c cut_pg = Ok ENCLOSED /\ contour_in_polygon left_more cut_more = Ok ENCLOSED.
Proof. exact wit_same_areas. Qed.

(** They can be exchanged, and so can OVERLAP and TOUCH for polygons in multipolygons. *)
Theorem contour_in_polygon_depends_refuted : exists c c' pg, simple_contour c /\ simple_contour c' /\ valid_polygon pg /\ (forall p, point_in_contour p c = point_in_contour p c')
  /\ contour_in_polygon c pg = Ok CROSS /\ contour_in_polygon c' pg = Ok TOUCH.
Proof. exact contour_same_refuted_l. Qed.
Print Assumptions contour_in_polygon_depends_refuted.
Theorem polygon_in_multipolygon_depends_refuted : exists pg pg' mp, valid_polygon pg /\ valid_polygon pg' /\ valid_multipolygon mp /\ (forall p, point_in_polygon p pg = point_in_polygon p pg')
  /\ polygon_in_multipolygon pg mp = Ok OVERLAP /\ polygon_in_multipolygon pg' mp = Ok TOUCH.
Proof. exact polygon_same_refuted_l. Qed.
Print Assumptions polygon_in_multipolygon_depends_refuted.
