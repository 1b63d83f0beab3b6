(* Property C72: what is answered for polygons whose rings touch. *)
From Coq Require Import QArith Qcanon List Bool.
From Verif Require Import Scalar Base Ground MLinear MSweep MCompound Planar Spec SpecAreas SpecContact SpecRings PolyAlways Witness11 RefuteProofs Witness12 Witness22.
Import ListNotations.
Open Scope Qc_scope.

(** Lines. *)
Theorem contour_in_polygon_always : forall pg, valid_polygon pg -> forall c, simple_contour c ->
  ring_answer (on_contour c) (contours_edges [c]) pg (contour_in_polygon c pg).
Proof. exact contour_in_polygon_always_l. Qed.
Print Assumptions contour_in_polygon_always.
Example contour_in_polygon_always_occurs : valid_polygon cut_pg /\ simple_contour loop_c /\ simple_contour left_c
  /\ contour_in_polygon loop_c cut_pg = Ok CROSS /\ linear_areal_spec (on_contour loop_c) (polygon_area cut_pg) TOUCH
  /\ contour_in_polygon left_c cut_pg = Ok ENCLOSED /\ linear_areal_spec (on_contour left_c) (polygon_area cut_pg) COMPONENT.
Proof. exact wit_rings_contours. Qed.
Theorem segment_in_polygon_always : forall pg, valid_polygon pg -> forall s, nondegenerate s ->
  answer_is (linear_areal_spec (in_segment s) (region_area (border pg))) (segment_in_region s (border pg)) ->
  ring_answer (in_segment s) [(s_start s, s_end s)] pg (segment_in_polygon s pg).
Proof. exact segment_in_polygon_always_l. Qed.
Print Assumptions segment_in_polygon_always.
Example segment_in_polygon_always_occurs : nondegenerate drop_s
  /\ answer_is (linear_areal_spec (in_segment drop_s) (region_area (border cut_pg))) (segment_in_region drop_s (border cut_pg))
  /\ segment_in_polygon drop_s cut_pg = Ok CROSS /\ linear_areal_spec (in_segment drop_s) (polygon_area cut_pg) TOUCH.
Proof. exact wit_rings_segment. Qed.

(** Areas. *)
Theorem multiregion_in_polygon_always : forall rs pg, valid_multiregion rs -> rs <> [] -> valid_polygon pg ->
  answer_is (merged_spec (multiregion_area rs) (polygon_area pg)) (multiregion_in_polygon rs pg)
  \/ (covered_together rs pg
      /\ (multiregion_in_polygon rs pg = Ok OVERLAP /\ proper_part (polygon_area pg) (multiregion_area rs)
          \/ multiregion_in_polygon rs pg = Ok ENCLOSED /\ areal_spec (multiregion_area rs) (polygon_area pg) EQUAL)).
Proof. exact multiregion_in_polygon_always_l. Qed.
Print Assumptions multiregion_in_polygon_always.
Theorem multiregion_in_polygon_facts : forall rs pg rel, valid_multiregion rs -> rs <> [] -> valid_polygon pg -> In rel [DISJOINT; TOUCH; WITHIN; COVER] ->
  (multiregion_in_polygon rs pg = Ok rel <-> areal_spec (multiregion_area rs) (polygon_area pg) rel).
Proof. exact multiregion_in_polygon_facts_l. Qed.
Print Assumptions multiregion_in_polygon_facts.
Example multiregion_in_polygon_always_occurs : valid_multiregion [left_c; right_c] /\ valid_multiregion [wide_c; right_c]
  /\ multiregion_in_polygon [left_c; right_c] cut_pg = Ok ENCLOSED /\ areal_spec (multiregion_area [left_c; right_c]) (polygon_area cut_pg) EQUAL
  /\ multiregion_in_polygon [wide_c; right_c] cut_pg = Ok OVERLAP /\ areal_spec (multiregion_area [wide_c; right_c]) (polygon_area cut_pg) ENCLOSES.
Proof. exact wit_rings_areas. Qed.
Theorem polygon_in_polygon_always : forall pt pg, valid_polygon pt -> valid_polygon pg ->
  exists rel, polygon_in_polygon pt pg = Ok rel
    /\ (parts_spec (polygon_area pt) (polygon_area pg) rel /\ (no_touching_holes pt pg -> no_touching_holes pg pt -> merged_both_spec (polygon_area pt) (polygon_area pg) rel)
        \/ (rel = OVERLAP /\ areal_spec (polygon_area pt) (polygon_area pg) TOUCH
            /\ ~ (clear_border (polygon_boundary pt) pg /\ clear_border (polygon_boundary pg) pt))).
Proof. exact polygon_in_polygon_always_l. Qed.
Print Assumptions polygon_in_polygon_always.
Theorem polygon_in_polygon_facts : forall pt pg, valid_polygon pt -> valid_polygon pg ->
  let T := polygon_area pt in let G := polygon_area pg in
  (polygon_in_polygon pt pg = Ok DISJOINT <-> areal_spec T G DISJOINT)
  /\ (polygon_in_polygon pt pg = Ok EQUAL <-> areal_spec T G EQUAL)
  /\ (polygon_in_polygon pt pg = Ok WITHIN \/ polygon_in_polygon pt pg = Ok ENCLOSED <-> proper_part T G)
  /\ (polygon_in_polygon pt pg = Ok COVER \/ polygon_in_polygon pt pg = Ok ENCLOSES <-> proper_part G T)
  /\ (polygon_in_polygon pt pg = Ok TOUCH -> areal_spec T G TOUCH)
  /\ (areal_spec T G OVERLAP -> polygon_in_polygon pt pg = Ok OVERLAP).
Proof. exact polygon_in_polygon_facts_l. Qed.
Print Assumptions polygon_in_polygon_facts.
Example polygon_in_polygon_always_occurs : valid_polygon left_p /\ valid_polygon upper_p /\ polygon_in_polygon left_p upper_p = Ok OVERLAP
  /\ areal_spec (polygon_area left_p) (polygon_area upper_p) TOUCH
  /\ map (fun p => polygon_in_polygon p cut_pg) [cut_pg; Poly left_c []; Poly (sqr 0 8) []; Poly (sqr 20 21) []; Poly (Ctr [P 4 0; P 6 4; P 4 8]) []; Poly (sqr (-1) 9) []]
     = [Ok EQUAL; Ok ENCLOSED; Ok ENCLOSES; Ok DISJOINT; Ok TOUCH; Ok COVER].
Proof. exact wit_rings_polygons. Qed.
