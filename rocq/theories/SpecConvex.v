(* Convex contours. *)
From Coq Require Import QArith Qcanon List ZArith.
From Verif Require Import Scalar Base Ground MLinear Spec.
Import ListNotations.
Open Scope Qc_scope.

(* No vertex is on the right of an edge, or none is on the left of one. *)
Definition convex (c : contour) : Prop :=
  (forall a b v, In (a, b) (cyc_pairs (vertices c)) -> In v (vertices c) -> ~ to_right a b v)
  \/ (forall a b v, In (a, b) (cyc_pairs (vertices c)) -> In v (vertices c) -> ~ to_left a b v).
(* The first area is a part of the second one. *)
Definition part_relations : list relation := [WITHIN; ENCLOSED; COMPONENT; EQUAL].
