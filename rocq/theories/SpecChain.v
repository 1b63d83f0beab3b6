(* Two relations in a row where rings and edges touch. *)
From Coq Require Import QArith Qcanon List Bool.
From Verif Require Import Scalar Base Ground Spec SpecMore.
Import ListNotations.

(* Polygons [a], [b] and [c]. *)
Definition chains_polygons (ab bc ac : relation) : Prop :=
  (part_relation ab -> part_relation bc -> part_relation ac)
  /\ (part_relation ab -> bc = DISJOINT -> ac = DISJOINT)
  /\ (part_relation ab -> apart_relation bc -> apart_relation ac)
  /\ (ab = EQUAL -> ac = bc) /\ (bc = EQUAL -> ac = ab).
(* A line [x] in an area [a] and the area in another one. *)
Definition chains_line (xa ab xb : relation) : Prop :=
  (In xa [WITHIN; ENCLOSED; COMPONENT] -> part_relation ab -> In xb [WITHIN; ENCLOSED; COMPONENT])
  /\ (xa = WITHIN -> part_relation ab -> xb = WITHIN)
  /\ (In xa [WITHIN; ENCLOSED; COMPONENT] -> ab = DISJOINT -> xb = DISJOINT)
  /\ (xa = WITHIN -> ab = TOUCH -> xb = DISJOINT).
