(* Witnesses for areas of different kinds. *)
From Coq Require Import QArith Qcanon List Bool ZArith.
From Verif Require Import Scalar Base Ground MLinear MSweep MCompound Planar Spec SpecAreas SpecContact SpecMore SpecRings SpecNested Geom Check Witness RefuteProofs Witness6 Witness11 Witness12 Witness16 Witness18 Witness22 NestedProofs Areas.
Import ListNotations.
Open Scope Qc_scope.

(* A polygon whose hole cuts it in two, the two parts, and an area for each. *)
Definition ell : contour := Ctr [P (-8) (-4); P 4 (-4); P 4 0; P (-4) 0; P (-4) 4; P (-8) 4].
Definition roof : contour := Ctr [P 0 0; P 2 4; P (-4) 2].
Definition torn : polygon := Poly (Ctr [P 0 (-2); P 0 2; P (-4) 2; P (-6) (-2)]) [Ctr [P 0 0; P (-4) 2; P (-5) (-1)]].
Definition torn_up : contour := Ctr [P 0 0; P 0 2; P (-4) 2].
Definition torn_low : contour := Ctr [P 0 0; P (-5) (-1); P (-4) 2; P (-6) (-2); P 0 (-2)].
Definition torn_two : multipolygon := MPoly [Poly torn_up []; Poly torn_low []].
Definition ell_roof : multipolygon := MPoly [Poly ell []; Poly roof []].
Definition all_areas : list geometry :=
  [GRegion (sqr 1 2); GMultiregion [sqr 1 2; sqr 3 4]; GPolygon (Poly (sqr 0 5) [sqr 2 3]); GMultipolygon (MPoly [Poly (sqr (-1) 6) [sqr 2 3]; Poly (sqr 7 8) []]); GRegion (sqr 20 21); GRegion (sqr 2 3)].
Lemma torn_valid : valid_polygon torn. Proof. valid_pg. Qed.
Lemma wit_all_areas : Forall geo_valid all_areas.
Proof.
  unfold all_areas. repeat (apply Forall_cons; [cbn [geo_valid]|]); [simple| | | |simple|simple|apply Forall_nil].
  - split; [valid_mr|discriminate].
  - valid_pg.
  - split; [valid_mp|discriminate].
Qed.
Lemma wit_torn : geo_valid (GPolygon torn) /\ geo_valid (GMultipolygon torn_two) /\ geo_valid (GMultipolygon ell_roof)
  /\ asked (GPolygon torn) (GMultipolygon torn_two) (Ok EQUAL) /\ asked (GMultipolygon torn_two) (GMultipolygon ell_roof) (Ok ENCLOSED) /\ asked (GPolygon torn) (GMultipolygon ell_roof) (Ok OVERLAP)
  /\ areal_spec (polygon_area torn) (multipolygon_area ell_roof) ENCLOSED.
Proof.
  assert (V1 : geo_valid (GPolygon torn)) by exact torn_valid. assert (V2 : geo_valid (GMultipolygon torn_two)) by (split; [valid_mp|discriminate]).
  assert (V3 : geo_valid (GMultipolygon ell_roof)) by (split; [valid_mp|discriminate]).
  assert (Q1 : asked (GPolygon torn) (GMultipolygon torn_two) (Ok EQUAL)) by (rewrite <- (eq_refl : polygon_in_multipolygon torn torn_two = Ok EQUAL); apply ask_pq).
  assert (Q2 : asked (GMultipolygon torn_two) (GMultipolygon ell_roof) (Ok ENCLOSED)) by (rewrite <- (eq_refl : multipolygon_in_multipolygon torn_two ell_roof = Ok ENCLOSED); apply ask_qq).
  assert (Q3 : asked (GPolygon torn) (GMultipolygon ell_roof) (Ok OVERLAP)) by (rewrite <- (eq_refl : polygon_in_multipolygon torn ell_roof = Ok OVERLAP); apply ask_pq).
  repeat (split; [assumption|]).
  destruct (areas_answered_l _ _ _ V1 V2 Q1) as (r & y & E & S1 & A). injection E as <-. assert (y = EQUAL) as -> by (destruct A as [A|(A & _)]; [auto|discriminate A]).
  destruct (areas_answered_l _ _ _ V2 V3 Q2) as (r & y & E & S2 & A'). injection E as <-. assert (y = ENCLOSED) as -> by (destruct A' as [A'|(A' & _)]; [auto|discriminate A']).
  exact (Consequences.chain_equal _ _ _ (geo_shaped _ V1) (geo_shaped _ V2) ENCLOSED S1 S2).
Qed.
Lemma wit_torn_whole : valid_multiregion [ell; roof] /\ valid_multipolygon (MPoly [torn]) /\ areal_spec (multiregion_area [ell; roof]) (multipolygon_area (MPoly [torn])) ENCLOSES
  /\ multiregion_in_multipolygon [ell; roof] (MPoly [torn]) = Ok OVERLAP.
Proof.
  split; [valid_mr|]. split; [valid_mp|]. split; [|vm_compute; reflexivity].
  assert (V1 : geo_valid (GMultipolygon (MPoly [torn]))) by (split; [valid_mp|discriminate]). assert (V2 : geo_valid (GMultipolygon torn_two)) by (split; [valid_mp|discriminate]).
  assert (V3 : geo_valid (GMultiregion [ell; roof])) by (split; [valid_mr|discriminate]).
  assert (Q1 : asked (GMultipolygon (MPoly [torn])) (GMultipolygon torn_two) (Ok EQUAL)) by (rewrite <- (eq_refl : multipolygon_in_multipolygon (MPoly [torn]) torn_two = Ok EQUAL); apply ask_qq).
  assert (Q2 : asked (GMultiregion [ell; roof]) (GMultipolygon torn_two) (Ok ENCLOSES)) by (rewrite <- (eq_refl : multiregion_in_multipolygon [ell; roof] torn_two = Ok ENCLOSES); apply ask_mq).
  destruct (areas_answered_l _ _ _ V1 V2 Q1) as (r & y & E & S1 & A). injection E as <-. assert (y = EQUAL) as -> by (destruct A as [A|(A & _)]; [auto|discriminate A]).
  destruct (areas_answered_l _ _ _ V3 V2 Q2) as (r & y & E & S2 & A'). injection E as <-. assert (y = ENCLOSES) as -> by (destruct A' as [A'|(A' & _)]; [auto|discriminate A']).
  apply AreaQueries.areal_spec_swap in S2. cbn [complement] in S2.
  exact (AreaQueries.areal_spec_swap _ _ _ (Consequences.chain_equal _ _ _ (geo_shaped _ V1) (geo_shaped _ V2) ENCLOSED S1 S2)).
Qed.
Lemma wit_nested : found (GRegion (sqr 1 2)) (GMultiregion [sqr 1 2; sqr 3 4]) COMPONENT
  /\ found (GMultiregion [sqr 1 2; sqr 3 4]) (GPolygon (Poly (sqr 0 5) [sqr 2 3])) ENCLOSED
  /\ found (GPolygon (Poly (sqr 0 5) [sqr 2 3])) (GMultipolygon (MPoly [Poly (sqr (-1) 6) [sqr 2 3]; Poly (sqr 7 8) []])) ENCLOSED
  /\ found (GMultiregion [sqr 0 5; sqr 7 8]) (GPolygon (Poly (sqr 0 5) [sqr 2 3])) ENCLOSES
  /\ found (GPolygon (Poly (sqr 0 5) [sqr 2 3])) (GMultiregion [sqr 0 5; sqr 7 8]) ENCLOSED
  /\ found (GPolygon (Poly (sqr 0 5) [sqr 2 3])) (GRegion (sqr 20 21)) DISJOINT
  /\ found (GPolygon (Poly (sqr 0 5) [sqr 2 3])) (GRegion (sqr 2 3)) TOUCH.
Proof.
  split; [left; rewrite <- (eq_refl : region_in_multiregion (sqr 1 2) [sqr 1 2; sqr 3 4] = Ok COMPONENT); apply ask_rm|].
  split; [left; rewrite <- (eq_refl : multiregion_in_polygon [sqr 1 2; sqr 3 4] (Poly (sqr 0 5) [sqr 2 3]) = Ok ENCLOSED); apply ask_mp|].
  split; [left; rewrite <- (eq_refl : polygon_in_multipolygon (Poly (sqr 0 5) [sqr 2 3]) (MPoly [Poly (sqr (-1) 6) [sqr 2 3]; Poly (sqr 7 8) []]) = Ok ENCLOSED); apply ask_pq|].
  assert (Q : asked (GMultiregion [sqr 0 5; sqr 7 8]) (GPolygon (Poly (sqr 0 5) [sqr 2 3])) (Ok ENCLOSES))
    by (rewrite <- (eq_refl : multiregion_in_polygon [sqr 0 5; sqr 7 8] (Poly (sqr 0 5) [sqr 2 3]) = Ok ENCLOSES); apply ask_mp).
  split; [left; exact Q|]. split; [right; exists ENCLOSES; split; [exact Q|reflexivity]|].
  split; right; [exists DISJOINT|exists TOUCH]; (split; [|reflexivity]).
  - rewrite <- (eq_refl : region_in_polygon (sqr 20 21) (Poly (sqr 0 5) [sqr 2 3]) = Ok DISJOINT). apply ask_rp.
  - rewrite <- (eq_refl : region_in_polygon (sqr 2 3) (Poly (sqr 0 5) [sqr 2 3]) = Ok TOUCH). apply ask_rp.
Qed.
