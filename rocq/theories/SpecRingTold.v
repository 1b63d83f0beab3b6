(* Exactly when the rings of a polygon that touch mislead the queries about lines. *)
From Coq Require Import QArith Qcanon List Bool.
From Verif Require Import Scalar Base Ground Spec SpecAreas SpecAround.
Import ListNotations.

(* A line [X] with the segments [l] has no point in the interior of the polygon,
   but points on both sides of the border, or points in holes and either points
   outside of all holes or a segment that cuts an edge of a hole. *)
Definition passes_rings (X : point -> Prop) (l : list (point * point)) (pg : polygon) : Prop :=
  ~ meets X (polygon_interior pg)
  /\ (meets X (inside (border pg)) /\ meets X (outside (border pg))
      \/ meets X (a_in (multiregion_area (holes pg)))
         /\ (meets X (a_out (multiregion_area (holes pg))) \/ cut_by l (contours_edges (holes pg)))).
(* It is part of the boundary of the polygon, but neither of the border nor of
   the boundaries of the holes. *)
Definition changes_rings (X : point -> Prop) (pg : polygon) : Prop :=
  subset X (polygon_boundary pg) /\ ~ subset X (on_contour (border pg)) /\ ~ subset X (on_contours (holes pg)).
Definition ring_told (X : point -> Prop) (l : list (point * point)) (pg : polygon) (r : res relation) : Prop :=
  (passes_rings X l pg -> r = Ok CROSS) /\ (changes_rings X pg -> r = Ok ENCLOSED)
  /\ (~ passes_rings X l pg -> ~ changes_rings X pg -> answer_is (linear_areal_spec X (polygon_area pg)) r).
(* The same for each answer. *)
Definition each_ring_answer (X : point -> Prop) (l : list (point * point)) (pg : polygon) (r : res relation) : Prop :=
  let S := linear_areal_spec X (polygon_area pg) in
  (forall rel, In rel [DISJOINT; WITHIN] -> (r = Ok rel <-> S rel))
  /\ (r = Ok TOUCH <-> S TOUCH /\ ~ passes_rings X l pg)
  /\ (r = Ok COMPONENT <-> S COMPONENT /\ ~ changes_rings X pg)
  /\ (r = Ok CROSS <-> S CROSS \/ passes_rings X l pg)
  /\ (r = Ok ENCLOSED <-> S ENCLOSED \/ changes_rings X pg)
  /\ (passes_rings X l pg -> S TOUCH) /\ (changes_rings X pg -> S COMPONENT).
