(* Property C89.  Statements only; the proofs are in PolyChain.v and Witness38.v. *)
From Coq Require Import QArith Qcanon List Bool ZArith.
From Verif Require Import Scalar Base Ground MLinear MSweep MCompound Planar Spec SpecMore SpecSeen SpecChain SpecAreas RefuteProofs PolyChain Witness12 Witness22 Witness38.
Import ListNotations.
Open Scope Qc_scope.

(** C89: two relations in a row for polygons, whatever rings touch. *)
Theorem polygon_chain : forall a b c ab bc ac, valid_polygon a -> valid_polygon b -> valid_polygon c ->
  polygon_in_polygon a b = Ok ab -> polygon_in_polygon b c = Ok bc -> polygon_in_polygon a c = Ok ac -> chains_polygons ab bc ac.
Proof. exact polygon_chain_l. Qed.
Print Assumptions polygon_chain.
(** Polygons with the same points have the same relations. *)
Theorem polygon_equal_relations : forall a b c, valid_polygon a -> valid_polygon b -> valid_polygon c -> polygon_in_polygon a b = Ok EQUAL -> polygon_in_polygon a c = polygon_in_polygon b c.
Proof. exact polygon_equal_l. Qed.
Print Assumptions polygon_equal_relations.
Example polygon_chain_occurs : valid_polygon w_in /\ valid_polygon w_out /\ valid_polygon filled /\ valid_polygon bite /\ Forall valid_polygon [frame 0 12 4 8; frame 1 11 3 9; Poly (sqr 5 6) []]
  /\ polygon_in_polygon w_in w_out = Ok WITHIN /\ polygon_in_polygon w_out filled = Ok ENCLOSED /\ polygon_in_polygon w_in filled = Ok ENCLOSED
  /\ polygon_in_polygon w_out bite = Ok TOUCH /\ polygon_in_polygon w_in bite = Ok TOUCH
  /\ polygon_in_polygon (frame 1 11 3 9) (frame 0 12 4 8) = Ok WITHIN /\ polygon_in_polygon (frame 0 12 4 8) (Poly (sqr 5 6) []) = Ok DISJOINT
  /\ polygon_in_polygon (frame 1 11 3 9) (Poly (sqr 5 6) []) = Ok DISJOINT.
Proof. exact wit_chain_polygons. Qed.

(** Where holes touch, a part of what is WITHIN need not be told WITHIN. *)
Theorem polygon_chain_within_refuted : exists a b c, valid_polygon a /\ valid_polygon b /\ valid_polygon c
  /\ polygon_in_polygon a b = Ok WITHIN /\ (exists bc, part_relation bc /\ polygon_in_polygon b c = Ok bc) /\ polygon_in_polygon a c = Ok ENCLOSED.
Proof. exact polygon_chain_within_refuted_l. Qed.
Print Assumptions polygon_chain_within_refuted.
Theorem polygon_chain_touch_refuted : exists a b c, valid_polygon a /\ valid_polygon b /\ valid_polygon c
  /\ polygon_in_polygon a b = Ok WITHIN /\ polygon_in_polygon b c = Ok TOUCH /\ polygon_in_polygon a c = Ok TOUCH.
Proof. exact polygon_chain_touch_refuted_l. Qed.
Print Assumptions polygon_chain_touch_refuted.
(** A contour in a polygon that is part of or apart from another one. *)
Theorem contour_polygon_chain : forall x a b xa ab xb, simple_contour x -> valid_polygon a -> valid_polygon b ->
  contour_in_polygon x a = Ok xa -> polygon_in_polygon a b = Ok ab -> contour_in_polygon x b = Ok xb -> chains_line xa ab xb.
Proof. exact contour_chain_l. Qed.
Print Assumptions contour_polygon_chain.
Example contour_polygon_chain_occurs : Forall simple_contour [left_c; sqr 0 1; sqr 5 6] /\ valid_polygon cut_pg /\ valid_polygon (Poly (sqr 0 8) []) /\ valid_polygon (Poly (sqr 20 21) [])
  /\ map (fun c => contour_in_polygon c cut_pg) [left_c; sqr 0 1; Ctr [P 1 1; P 2 1; P 1 2]] = [Ok ENCLOSED; Ok ENCLOSED; Ok WITHIN] /\ polygon_in_polygon cut_pg (Poly (sqr 0 8) []) = Ok ENCLOSED
  /\ map (fun c => contour_in_polygon c (Poly (sqr 0 8) [])) [left_c; sqr 0 1; Ctr [P 1 1; P 2 1; P 1 2]] = [Ok ENCLOSED; Ok ENCLOSED; Ok WITHIN]
  /\ polygon_in_polygon cut_pg (Poly (sqr 20 21) []) = Ok DISJOINT /\ contour_in_polygon left_c (Poly (sqr 20 21) []) = Ok DISJOINT.
Proof. exact wit_chain_line. Qed.

(** Multipolygons. *)
Theorem multipolygon_chain : forall a b c ab bc ac, valid_multipolygon a -> polygons a <> [] -> valid_multipolygon b -> polygons b <> [] -> valid_multipolygon c -> polygons c <> [] ->
  multipolygon_in_multipolygon a b = Ok ab -> multipolygon_in_multipolygon b c = Ok bc -> multipolygon_in_multipolygon a c = Ok ac -> ab <> OVERLAP -> bc <> OVERLAP ->
  (seen_cut (multipolygon_edges a) (multipolygon_edges c) -> ac = OVERLAP) /\ (~ seen_cut (multipolygon_edges a) (multipolygon_edges c) -> chains ab bc ac).
Proof. exact multipolygon_chain_l. Qed.
Print Assumptions multipolygon_chain.
Example multipolygon_chain_occurs : Forall valid_multipolygon [two_slim; two_frames; two_full]
  /\ multipolygon_in_multipolygon two_slim two_frames = Ok WITHIN /\ multipolygon_in_multipolygon two_frames two_full = Ok ENCLOSED
  /\ multipolygon_in_multipolygon two_slim two_full = Ok WITHIN /\ ~ seen_cut (multipolygon_edges two_slim) (multipolygon_edges two_full).
Proof. exact wit_chain_multi. Qed.
