(* Each answer of the one-sweep queries for areas, exactly. *)
From Coq Require Import QArith Qcanon List Bool.
From Verif Require Import Scalar Base Ground Spec.
Import ListNotations.

(* [C]: an edge cut is seen. *)
Definition each_sweep_answer (A B : area) (C : Prop) (r : res relation) : Prop :=
  (forall rel, In rel [DISJOINT; WITHIN; COVER; EQUAL] -> (r = Ok rel <-> areal_spec A B rel))
  /\ (forall rel, In rel [TOUCH; ENCLOSED; ENCLOSES; COMPONENT; COMPOSITE] -> (r = Ok rel <-> areal_spec A B rel /\ ~ C))
  /\ (r = Ok OVERLAP <-> areal_spec A B OVERLAP \/ C).
