(* Linear geometries that contain the boundary of an area, and points on both
   sides of it. *)
From Coq Require Import QArith Qcanon List Bool.
From Verif Require Import Scalar Base Ground Spec SpecAreas.
Import ListNotations.
Open Scope Qc_scope.

(* The segments meet in a single point, which is an end of neither. *)
Definition cuts (e e' : point * point) : Prop :=
  exists p, on_segment (fst e) (snd e) p /\ on_segment (fst e') (snd e') p
    /\ p <> fst e /\ p <> snd e /\ p <> fst e' /\ p <> snd e'
    /\ forall d, on_segment (fst e) (snd e) d -> on_segment (fst e') (snd e') d -> d = p.
Definition cut_by (l l' : list (point * point)) : Prop := exists e e', In e l /\ In e' l' /\ cuts e e'.
(* The segments of a multisegment. *)
Definition multisegment_edges (m : multisegment) : list (point * point) :=
  map (fun s => (s_start s, s_end s)) (segments m).

(* The linear geometry has interior and exterior points, and contains the
   boundary of each part that it is not separated from. *)
Definition runs_round {A} (X : point -> Prop) (part : A -> area) (whole : area) (l : list A) : Prop :=
  meets X (a_in whole) /\ meets X (a_out whole)
  /\ forall x, In x l -> subset (a_on (part x)) X \/ axis_separated X (a_on (part x)).

(* CROSS if [C], else TOUCH. *)
Definition cross_or_touch (C : Prop) (r : res relation) : Prop := r = Ok CROSS /\ C \/ r = Ok TOUCH /\ ~ C.
