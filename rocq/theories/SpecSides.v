(* Passing from one side of a line to the other. *)
From Coq Require Import QArith Qcanon List.
From Verif Require Import Scalar Base Spec SpecMore.
Import ListNotations.
Open Scope Qc_scope.

(* Setting off from [z] towards [t] one first comes inside. *)
Definition enters (c : contour) (z t : point) : Prop :=
  exists d, 0 < d /\ d <= 1 /\ forall e, 0 < e -> e <= d -> inside c (lerp z t e).
(* One of the segments goes from [z] towards [t]. *)
Definition runs_to (l : list (point * point)) (z t : point) : Prop :=
  exists a b, In (a, b) l /\ on_segment a b z /\ on_segment a b t.
(* At a point of the contour some segment goes inside and some, perhaps the same
   one, goes outside. *)
Definition passes_over (l : list (point * point)) (c : contour) : Prop :=
  exists p q r, on_contour c p /\ runs_to l p q /\ enters c p q /\ runs_to l p r /\ leaves c p r.

(* The segments reach from [p] as far as [z]. *)
Definition branch_at (l : list (point * point)) (p z : point) : Prop :=
  exists a b, In (a, b) l /\ on_segment a b p /\ z <> p /\ (z = a \/ z = b).
(* At a point of [l] no more than two branches of [l'] meet. *)
Definition at_most_two (l l' : list (point * point)) : Prop :=
  forall p a b, In (a, b) l -> on_segment a b p -> forall u v w, branch_at l' p u -> branch_at l' p v -> branch_at l' p w -> u = v \/ v = w \/ u = w.
(* [q] is seen from [p] between [u] and [w]; if those are opposite, then to the
   left of the way to [u]. *)
Definition in_angle (p u w q : point) : Prop :=
  to_left p u w /\ to_left p u q /\ to_left p q w
  \/ to_right p u w /\ to_right p u q /\ to_right p q w
  \/ ~ to_left p u w /\ ~ to_right p u w /\ to_left p u q.
(* At some point [l] has branches on both sides of two branches of [l']. *)
Definition parted (l l' : list (point * point)) : Prop :=
  exists p u w q r, branch_at l' p u /\ branch_at l' p w /\ u <> w /\ branch_at l p q /\ branch_at l p r
    /\ in_angle p u w q /\ ~ in_angle p u w r.
(* Two linear geometries, crossing told from touching. *)
Definition sided_spec (X Y : point -> Prop) (crossing : Prop) (rel : relation) : Prop :=
  linear_spec X Y rel /\ (rel = CROSS -> crossing) /\ (rel = TOUCH -> ~ crossing).
