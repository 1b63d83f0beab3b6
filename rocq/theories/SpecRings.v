(* Answers of the polygon queries where the border and the holes touch. *)
From Coq Require Import QArith Qcanon List Bool.
From Verif Require Import Scalar Base Ground Spec SpecAreas SpecContact.
Import ListNotations.

(* A line [X] with the segments [l]: the answer is the true relation, or CROSS for
   TOUCH or ENCLOSED for COMPONENT because of points where rings touch. *)
Definition ring_answer (X : point -> Prop) (l : list (point * point)) (pg : polygon) (r : res relation) : Prop :=
  answer_is (linear_areal_spec X (polygon_area pg)) r
  \/ (r = Ok CROSS /\ linear_areal_spec X (polygon_area pg) TOUCH /\ (contact_cut l (contours_edges (holes pg)) \/ ~ clear_border X pg))
  \/ (r = Ok ENCLOSED /\ linear_areal_spec X (polygon_area pg) COMPONENT /\ ~ clear_border X pg).
(* The regions cover the polygon only together. *)
Definition covered_together (rs : multiregion) (pg : polygon) : Prop :=
  subset (a_cl (polygon_area pg)) (a_cl (multiregion_area rs))
  /\ forall r, In r rs -> ~ subset (a_cl (region_area (border pg))) (a_cl (region_area r)).
