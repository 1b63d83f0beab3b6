(* Property C93.  Statements only; the proofs are in OneRegion.v and Witness42.v. *)
From Coq Require Import QArith Qcanon List Bool ZArith.
From Verif Require Import Scalar Base Ground MLinear MSweep MCompound Planar Spec SpecAreas SpecSeen SpecOneRegion OneRegion Witness12 Witness22 Witness42.
Import ListNotations.
Open Scope Qc_scope.

(** C93: the region in the multipolygon of one polygon is told by its points, whatever rings touch. *)
Theorem one_region_truth : forall r pg y, simple_contour r -> valid_polygon pg -> areal_spec (region_area r) (polygon_area pg) y -> region_in_multipolygon r (MPoly [pg]) = Ok y.
Proof. exact one_region_truth_l. Qed.
Print Assumptions one_region_truth.
(** region_in_polygon answers the same, only ENCLOSED for COMPONENT. *)
Theorem one_region_pairs : forall r pg, simple_contour r -> valid_polygon pg ->
  exists b, region_in_multipolygon r (MPoly [pg]) = Ok b /\ (region_in_polygon r pg = Ok b /\ b <> COMPONENT \/ region_in_polygon r pg = Ok ENCLOSED /\ b = COMPONENT).
Proof. exact one_region_pairs_l. Qed.
Print Assumptions one_region_pairs.
(** The same for multiregions unless an edge cut is seen, and then both queries answer OVERLAP. *)
Theorem one_regions_truth : forall rs pg y, valid_multiregion rs -> rs <> [] -> valid_polygon pg -> areal_spec (multiregion_area rs) (polygon_area pg) y ->
  (seen_cut (contours_edges rs) (polygon_edges pg) -> multiregion_in_multipolygon rs (MPoly [pg]) = Ok OVERLAP /\ multiregion_in_polygon rs pg = Ok OVERLAP /\ (y = OVERLAP \/ y = ENCLOSES))
  /\ (~ seen_cut (contours_edges rs) (polygon_edges pg) -> multiregion_in_multipolygon rs (MPoly [pg]) = Ok y).
Proof. exact one_regions_truth_l. Qed.
Print Assumptions one_regions_truth.
(** The two queries for multiregions answer the same or one of four pairs, and all four occur. *)
Theorem one_regions_pairs : forall rs pg, valid_multiregion rs -> rs <> [] -> valid_polygon pg ->
  exists a b, multiregion_in_polygon rs pg = Ok a /\ multiregion_in_multipolygon rs (MPoly [pg]) = Ok b /\ (a = b \/ In (a, b) regions_told_apart).
Proof. exact one_regions_pairs_l. Qed.
Print Assumptions one_regions_pairs.
Theorem one_regions_pairs_occur : forall a b, In (a, b) regions_told_apart ->
  exists rs pg, valid_multiregion rs /\ rs <> [] /\ valid_polygon pg /\ multiregion_in_polygon rs pg = Ok a /\ multiregion_in_multipolygon rs (MPoly [pg]) = Ok b.
Proof. exact every_regions_pair_l. Qed.
Print Assumptions one_regions_pairs_occur.
Example one_regions_occur : valid_polygon cut_pg /\ valid_multiregion [past; right_c] /\ seen_cut (contours_edges [past; right_c]) (polygon_edges cut_pg)
  /\ areal_spec (multiregion_area [past; right_c]) (polygon_area cut_pg) ENCLOSES
  /\ simple_contour past /\ areal_spec (region_area past) (polygon_area cut_pg) OVERLAP /\ seen_cut (contours_edges [past]) (polygon_edges cut_pg)
  /\ valid_multiregion [left_c; right_c] /\ ~ seen_cut (contours_edges [left_c; right_c]) (polygon_edges cut_pg) /\ areal_spec (multiregion_area [left_c; right_c]) (polygon_area cut_pg) EQUAL.
Proof. exact wit_one_regions. Qed.
