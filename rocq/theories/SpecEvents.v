(* Where segments are divided. *)
From Coq Require Import QArith Qcanon List.
From Verif Require Import Scalar Base Ground MLinear Spec.
Import ListNotations.
Open Scope Qc_scope.

Definition same_direction (a b c d : point) : Prop := (px b - px a) * (py d - py c) = (py b - py a) * (px d - px c).
(* [p] is strictly inside the segment number [i], and it is an end of one of the
   segments or a point of one with another direction. *)
Definition divided_at (l : list (point * point)) (i : nat) (p : point) : Prop :=
  exists a b, nth_error l i = Some (a, b) /\ on_segment a b p /\ p <> a /\ p <> b
  /\ exists c d, In (c, d) l /\ on_segment c d p /\ (p = c \/ p = d \/ ~ same_direction a b c d).
