(* Crossing at points where any number of branches meet. *)
From Coq Require Import QArith Qcanon List.
From Verif Require Import Scalar Base Spec SpecMore SpecSides.
Import ListNotations.
Open Scope Qc_scope.

Definition dot_at (p u v : point) : Qc := (px u - px p) * (px v - px p) + (py u - py p) * (py v - py p).
(* Seen from [p], the way to [w] turns off the way to [u] at least as much as the
   way to [v] does: the cosine of the one angle is not greater than that of the
   other one. *)
Definition turns_more (p u w v : point) : Prop :=
  dot_at p u w <= 0 /\ 0 <= dot_at p u v
  \/ 0 <= dot_at p u w /\ 0 <= dot_at p u v
     /\ dot_at p u w * dot_at p u w * dot_at p v v <= dot_at p u v * dot_at p u v * dot_at p w w
  \/ dot_at p u w <= 0 /\ dot_at p u v <= 0
     /\ dot_at p u v * dot_at p u v * dot_at p w w <= dot_at p u w * dot_at p u w * dot_at p v v.
(* No branch turns more off the way to [u] than the one to [w]. *)
Definition farthest (l : list (point * point)) (p u w : point) : Prop :=
  branch_at l p w /\ forall v, branch_at l p v -> turns_more p u w v.
(* [u] is farthest from some branch, and [w] is farthest from [u]. *)
Definition wide_pair (l : list (point * point)) (p u w : point) : Prop :=
  u <> w /\ farthest l p u w /\ exists u0, branch_at l p u0 /\ farthest l p u0 u.
(* There are branches on both sides of the ways to [u] and [w]. *)
Definition branches_both (l : list (point * point)) (p u w : point) : Prop :=
  exists q r, branch_at l p q /\ branch_at l p r /\ in_angle p u w q /\ ~ in_angle p u w r.
(* A segment of each goes on through [p]. *)
Definition pass_through (l l' : list (point * point)) (p : point) : Prop :=
  exists a b a' b', In (a, b) l /\ on_segment a b p /\ p <> a /\ p <> b
    /\ In (a', b') l' /\ on_segment a' b' p /\ p <> a' /\ p <> b'.
Definition crosses_somehow (l l' : list (point * point)) : Prop :=
  exists p, pass_through l l' p \/ exists u w, wide_pair l' p u w /\ branches_both l p u w.
Definition crosses_anyhow (l l' : list (point * point)) : Prop :=
  exists p, pass_through l l' p
    \/ (exists a b, In (a, b) l /\ on_segment a b p) /\ (exists u w, branch_at l' p u /\ branch_at l' p w /\ u <> w)
       /\ forall u w, wide_pair l' p u w -> branches_both l p u w.
(* Two linear geometries, crossing told from touching where that can be told. *)
Definition bounded_spec (X Y : point -> Prop) (surely possibly : Prop) (rel : relation) : Prop :=
  linear_spec X Y rel /\ (rel = CROSS -> possibly) /\ (rel = TOUCH -> ~ surely).
