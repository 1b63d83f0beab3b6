(* Each answer of the one-sweep queries for lines and areas, exactly. *)
From Coq Require Import QArith Qcanon List Bool.
From Verif Require Import Scalar Base Ground Spec.
Import ListNotations.

(* [C]: an edge of the area is cut. *)
Definition each_line_answer (X : point -> Prop) (A : area) (C : Prop) (r : res relation) : Prop :=
  let S := linear_areal_spec X A in
  (forall rel, In rel [DISJOINT; WITHIN] -> (r = Ok rel <-> S rel))
  /\ (forall rel, In rel [TOUCH; COMPONENT; ENCLOSED] -> (r = Ok rel <-> S rel /\ ~ C))
  /\ (r = Ok CROSS <-> S CROSS \/ C).
(* The same for multisegments, of which some that cross the area are answered
   TOUCH: the ones that run around it. *)
Definition each_lines_answer (X : point -> Prop) (A : area) (around C : Prop) (r : res relation) : Prop :=
  let S := linear_areal_spec X A in
  (forall rel, In rel [DISJOINT; WITHIN] -> (r = Ok rel <-> S rel))
  /\ (forall rel, In rel [COMPONENT; ENCLOSED] -> (r = Ok rel <-> S rel /\ ~ C))
  /\ (r = Ok TOUCH <-> ~ C /\ (~ around -> S TOUCH))
  /\ (r = Ok CROSS <-> C \/ S CROSS /\ ~ around).
