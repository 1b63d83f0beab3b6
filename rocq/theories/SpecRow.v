(* A line in an area and the area in another one, by the answers of the queries. *)
From Coq Require Import QArith Qcanon List Bool.
From Verif Require Import Scalar Base Ground Spec.
Import ListNotations.

(* [xa], [xb]: the line in the first and in the second area; [ab]: the first area in the second. *)
Definition line_row (xa ab xb : res relation) : Prop :=
  let part := In ab [Ok WITHIN; Ok ENCLOSED; Ok COMPONENT; Ok EQUAL] in
  let inside := In xa [Ok WITHIN; Ok ENCLOSED; Ok COMPONENT] in
  (xa = Ok WITHIN -> part -> xb = Ok WITHIN)
  /\ (inside -> ab = Ok WITHIN -> xb = Ok WITHIN)
  /\ (part -> xb = Ok DISJOINT -> xa = Ok DISJOINT)
  /\ (inside -> ab = Ok DISJOINT -> xb = Ok DISJOINT)
  /\ (xa = Ok WITHIN -> ab = Ok TOUCH -> xb = Ok DISJOINT)
  /\ (ab = Ok EQUAL -> (xa = Ok WITHIN <-> xb = Ok WITHIN) /\ (xa = Ok DISJOINT <-> xb = Ok DISJOINT)).
