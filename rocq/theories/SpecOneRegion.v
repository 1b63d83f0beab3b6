(* A multiregion in a polygon and in the multipolygon of it. *)
From Coq Require Import QArith Qcanon List Bool.
From Verif Require Import Scalar Base Ground Spec.
Import ListNotations.

(* Answers of the two queries that differ. *)
Definition regions_told_apart : list (relation * relation) :=
  [(ENCLOSED, COMPONENT); (ENCLOSED, EQUAL); (OVERLAP, ENCLOSES); (OVERLAP, COMPOSITE)].
