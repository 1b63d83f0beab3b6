(* Property C38.  Statements only; the proofs are in NoFail.v. *)
From Coq Require Import QArith Qcanon List Bool ZArith.
From Verif Require Import Scalar Base Ground MLinear MSweep MCompound Planar Spec NoFail RefuteProofs Witness4.
Import ListNotations.
Open Scope Qc_scope.

(** C38: on valid geometries no query raises.  Multiregions and multipolygons
    with no component at all have no bounding box; where the code asks for it,
    they are excluded. *)
Theorem linear_queries_return : forall s m m' c c',
  valid_multisegment m -> valid_multisegment m' -> simple_contour c -> simple_contour c' ->
  returns (segment_in_contour s c)
  /\ returns (multisegment_in_multisegment m m') /\ returns (multisegment_in_contour m c) /\ returns (contour_in_contour c c').
Proof. exact linear_queries_return_l. Qed.
Print Assumptions linear_queries_return.

Theorem region_queries_return : forall s m c r rs rs',
  nondegenerate s -> valid_multisegment m -> simple_contour c -> simple_contour r ->
  valid_multiregion rs -> valid_multiregion rs' ->
  returns (segment_in_region s r) /\ returns (multisegment_in_region m r) /\ returns (contour_in_region c r)
  /\ returns (region_in_region c r)
  /\ returns (segment_in_multiregion s rs) /\ returns (multisegment_in_multiregion m rs)
  /\ returns (contour_in_multiregion c rs) /\ returns (region_in_multiregion r rs)
  /\ (rs <> [] -> rs' <> [] -> returns (multiregion_in_multiregion rs rs')).
Proof. exact region_queries_return_l. Qed.
Print Assumptions region_queries_return.

Theorem polygon_queries_return : forall s m c r rs pg pg' mp mp',
  nondegenerate s -> valid_multisegment m -> simple_contour c -> simple_contour r ->
  valid_multiregion rs -> rs <> [] -> valid_polygon pg -> valid_polygon pg' ->
  valid_multipolygon mp -> polygons mp <> [] -> valid_multipolygon mp' -> polygons mp' <> [] ->
  returns (segment_in_polygon s pg) /\ returns (multisegment_in_polygon m pg) /\ returns (contour_in_polygon c pg)
  /\ returns (region_in_polygon r pg) /\ returns (multiregion_in_polygon rs pg) /\ returns (polygon_in_polygon pg pg')
  /\ returns (segment_in_multipolygon s mp) /\ returns (multisegment_in_multipolygon m mp)
  /\ returns (contour_in_multipolygon c mp) /\ returns (region_in_multipolygon r mp)
  /\ returns (multiregion_in_multipolygon rs mp) /\ returns (polygon_in_multipolygon pg mp)
  /\ returns (multipolygon_in_multipolygon mp mp').
Proof. exact polygon_queries_return_l. Qed.
Print Assumptions polygon_queries_return.

(* Valid geometries exist, among them a polygon with holes and a multipolygon
   of two touching polygons, and the queries answer something other than
   DISJOINT for them. *)
Example queries_return_case :
  valid_multisegment cross_ms /\ simple_contour sq_a /\ valid_multiregion [sq_a; tri_b]
  /\ valid_polygon w_in /\ valid_polygon w_out /\ holes w_out <> []
  /\ valid_multipolygon (MPoly [Poly sq_a []; Poly tri_b []])
  /\ multisegment_in_contour cross_ms sq_a <> Ok DISJOINT
  /\ multiregion_in_multiregion [sq_a; tri_b] [sq_a] <> Ok DISJOINT
  /\ polygon_in_polygon w_in w_out <> Ok DISJOINT.
Proof. exact wit_c38. Qed.

(* Validity matters: a multisegment with an overlap makes the query raise. *)
Example overlap_raises :
  ~ valid_multisegment overlapping_ms /\ multisegment_in_multisegment overlapping_ms cross_ms = Raise ValueError.
Proof. exact wit_c38_overlap. Qed.
