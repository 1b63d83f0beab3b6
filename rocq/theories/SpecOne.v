(* A polygon in another one and in the multipolygon of it. *)
From Coq Require Import QArith Qcanon List Bool.
From Verif Require Import Scalar Base Ground Spec.
Import ListNotations.

(* Answers of the two queries that differ. *)
Definition told_apart : list (relation * relation) :=
  [(OVERLAP, TOUCH); (WITHIN, ENCLOSED); (ENCLOSED, COMPONENT); (COVER, ENCLOSES); (ENCLOSES, COMPOSITE)].
