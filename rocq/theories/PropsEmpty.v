(* Property C83.  Statements only; the proofs are in EmptyProofs.v. *)
From Coq Require Import QArith Qcanon List Bool ZArith.
From Verif Require Import Scalar Base Ground MLinear MSweep MCompound Planar Spec EmptyProofs.
Import ListNotations.
Open Scope Qc_scope.

(** C83: collections without components.  Nothing is on or in an empty
    multisegment, multiregion or multipolygon: a point is outside of it, and
    every other geometry with components is disjoint from it. *)
Theorem empty_holds_no_point : forall p,
  point_in_multisegment p (MSeg []) = EXTERIOR /\ point_in_multiregion p [] = EXTERIOR
  /\ point_in_multipolygon p (MPoly []) = EXTERIOR.
Proof. exact empty_point_l. Qed.
Print Assumptions empty_holds_no_point.

Theorem disjoint_from_empty : forall s m c r pg,
  segments m <> [] -> simple_contour c -> simple_contour r -> valid_polygon pg ->
  segment_in_multisegment s (MSeg []) = DISJOINT
  /\ segment_in_multiregion s [] = Ok DISJOINT /\ multisegment_in_multiregion m [] = Ok DISJOINT
  /\ contour_in_multiregion c [] = Ok DISJOINT /\ region_in_multiregion r [] = Ok DISJOINT
  /\ segment_in_multipolygon s (MPoly []) = Ok DISJOINT /\ multisegment_in_multipolygon m (MPoly []) = Ok DISJOINT
  /\ contour_in_multipolygon c (MPoly []) = Ok DISJOINT /\ region_in_multipolygon r (MPoly []) = Ok DISJOINT
  /\ polygon_in_multipolygon pg (MPoly []) = Ok DISJOINT.
Proof. exact empty_goal_l. Qed.
Print Assumptions disjoint_from_empty.

(** An empty multisegment, asked about in anything, makes the query raise, and
    it is the only thing that does: a multisegment of a single segment is fine. *)
Theorem multisegments_return : forall m m' c r rs pg mp,
  Forall nondegenerate (segments m) -> ForallOrdPairs at_most_one_common (segments m) ->
  Forall nondegenerate (segments m') -> ForallOrdPairs at_most_one_common (segments m') ->
  simple_contour c -> simple_contour r -> valid_multiregion rs -> valid_polygon pg -> valid_multipolygon mp ->
  (returns (multisegment_in_multisegment m m') <-> segments m <> [] /\ segments m' <> [])
  /\ (returns (multisegment_in_contour m c) <-> segments m <> [])
  /\ (returns (multisegment_in_region m r) <-> segments m <> [])
  /\ (returns (multisegment_in_multiregion m rs) <-> segments m <> [])
  /\ (returns (multisegment_in_polygon m pg) <-> segments m <> [])
  /\ (returns (multisegment_in_multipolygon m mp) <-> segments m <> []).
Proof. exact multisegments_return_l. Qed.
Print Assumptions multisegments_return.

(** Two collections of regions or of polygons: the query raises exactly if one
    of them is empty.  In a single polygon an empty multiregion is disjoint. *)
Theorem collections_return : forall rs rs' pg mp mp',
  valid_multiregion rs -> valid_multiregion rs' -> valid_polygon pg -> valid_multipolygon mp -> valid_multipolygon mp' ->
  (returns (multiregion_in_multiregion rs rs') <-> rs <> [] /\ rs' <> [])
  /\ (returns (multiregion_in_multipolygon rs mp) <-> rs <> [] /\ polygons mp <> [])
  /\ (returns (multipolygon_in_multipolygon mp mp') <-> polygons mp <> [] /\ polygons mp' <> [])
  /\ returns (multiregion_in_polygon rs pg) /\ multiregion_in_polygon [] pg = Ok DISJOINT.
Proof. exact collections_return_l. Qed.
Print Assumptions collections_return.

(* Empty collections satisfy the hypotheses. *)
Example empty_allowed :
  Forall nondegenerate (segments (MSeg [])) /\ ForallOrdPairs at_most_one_common (segments (MSeg []))
  /\ valid_multiregion [] /\ valid_multipolygon (MPoly []).
Proof. exact wit_empty. Qed.
