(* Property C90.  Statements only; the proofs are in Bare.v and Witness39.v. *)
From Coq Require Import QArith Qcanon List Bool ZArith.
From Verif Require Import Scalar Base Ground MLinear MSweep MCompound Planar Spec SpecAreas SpecRings SpecBare RefuteProofs Bare Witness12 Witness22 Witness39.
Import ListNotations.
Open Scope Qc_scope.

(** C90: what is answered for a multiregion and a polygon, exactly, whatever rings touch. *)
Theorem multiregion_in_polygon_told : forall rs pg rel, valid_multiregion rs -> rs <> [] -> valid_polygon pg -> (multiregion_in_polygon rs pg = Ok rel <-> regions_told rs pg rel).
Proof. exact multiregion_in_polygon_told_l. Qed.
Print Assumptions multiregion_in_polygon_told.
(** The exceptions need two regions and a hole that touches the border. *)
Theorem covered_together_needs : forall rs pg, valid_multiregion rs -> rs <> [] -> valid_polygon pg -> covered_together rs pg ->
  (2 <= length rs)%nat /\ holes pg <> [] /\ ~ clear_border (on_contours rs) pg.
Proof. exact together_needs_l. Qed.
Print Assumptions covered_together_needs.
Example regions_told_occur : valid_polygon cut_pg /\ valid_multiregion [left_c; right_c] /\ valid_multiregion [wide_c; right_c] /\ valid_multiregion [left_c; sqr 9 10] /\ valid_multiregion [sqr 0 8; sqr 9 10]
  /\ covered_together [left_c; right_c] cut_pg /\ multiregion_in_polygon [left_c; right_c] cut_pg = Ok ENCLOSED
  /\ covered_together [wide_c; right_c] cut_pg /\ multiregion_in_polygon [wide_c; right_c] cut_pg = Ok OVERLAP
  /\ ~ covered_together [left_c; sqr 9 10] cut_pg /\ multiregion_in_polygon [left_c; sqr 9 10] cut_pg = Ok OVERLAP
  /\ ~ covered_together [sqr 0 8; sqr 9 10] cut_pg /\ multiregion_in_polygon [sqr 0 8; sqr 9 10] cut_pg = Ok ENCLOSES.
Proof. exact wit_told_regions. Qed.

(** One region is answered as a region, a polygon without holes as its border. *)
Theorem one_region_in_polygon_always : forall r pg, simple_contour r -> valid_polygon pg -> multiregion_in_polygon [r] pg = region_in_polygon r pg.
Proof. exact one_region_always_l. Qed.
Print Assumptions one_region_in_polygon_always.
Theorem bare_polygon_in_polygon : forall r pg, simple_contour r -> valid_polygon pg ->
  polygon_in_polygon (Poly r []) pg = region_in_polygon r pg /\ exists rel, region_in_polygon r pg = Ok rel /\ polygon_in_polygon pg (Poly r []) = Ok (complement rel).
Proof. exact bare_polygon_l. Qed.
Print Assumptions bare_polygon_in_polygon.
Theorem region_in_bare_polygon : forall r q, simple_contour r -> simple_contour q ->
  region_in_polygon r (Poly q []) = region_in_region r q /\ polygon_in_polygon (Poly r []) (Poly q []) = region_in_region r q.
Proof. exact bare_region_l. Qed.
Print Assumptions region_in_bare_polygon.
Theorem multiregion_in_bare_polygon : forall rs q, valid_multiregion rs -> rs <> [] -> simple_contour q ->
  exists rel, region_in_multiregion q rs = Ok rel /\ multiregion_in_polygon rs (Poly q []) = Ok (complement rel).
Proof. exact bare_multiregion_l. Qed.
Print Assumptions multiregion_in_bare_polygon.
Example bare_polygons_occur : valid_polygon cut_pg /\ simple_contour left_c /\ simple_contour right_c /\ region_in_polygon left_c cut_pg = Ok ENCLOSED /\ polygon_in_polygon (Poly left_c []) cut_pg = Ok ENCLOSED
  /\ polygon_in_polygon cut_pg (Poly left_c []) = Ok ENCLOSES /\ multiregion_in_polygon [left_c] cut_pg = Ok ENCLOSED /\ region_in_polygon left_c (Poly right_c []) = Ok TOUCH
  /\ valid_multiregion [left_c; right_c] /\ region_in_multiregion left_c [left_c; right_c] = Ok COMPONENT /\ multiregion_in_polygon [left_c; right_c] (Poly left_c []) = Ok COMPOSITE.
Proof. exact wit_bare. Qed.
