(* Segments that pass straight through an edge at a point where it meets
   another edge. *)
From Coq Require Import QArith Qcanon List Bool.
From Verif Require Import Scalar Base Ground Spec SpecAreas SpecAround.
Import ListNotations.
Open Scope Qc_scope.

(* The segments meet in the point only, which is an end of neither. *)
Definition cuts_at (e e' : point * point) (p : point) : Prop :=
  on_segment (fst e) (snd e) p /\ on_segment (fst e') (snd e') p
  /\ p <> fst e /\ p <> snd e /\ p <> fst e' /\ p <> snd e'
  /\ forall d, on_segment (fst e) (snd e) d -> on_segment (fst e') (snd e') d -> d = p.
(* A point of the edge [e] of the list where another edge of it passes. *)
Definition met_again (l : list (point * point)) (e : point * point) (p : point) : Prop :=
  exists e', In e' l /\ e' <> e /\ on_segment (fst e') (snd e') p.
(* A segment of [l] cuts an edge of [l'] where another edge of [l'] passes. *)
Definition contact_cut (l l' : list (point * point)) : Prop :=
  exists e e' p, In e l /\ In e' l' /\ cuts_at e e' p /\ met_again l' e' p.
(* A segment of [l] cuts an edge of [l'] elsewhere. *)
Definition clear_cut (l l' : list (point * point)) : Prop :=
  exists e e' p, In e l /\ In e' l' /\ cuts_at e e' p /\ ~ met_again l' e' p.
(* Edges of the lists cut each other where further edges of both pass. *)
Definition double_contact (l l' : list (point * point)) : Prop :=
  exists e e' p, In e l /\ In e' l' /\ cuts_at e e' p /\ met_again l e p /\ met_again l' e' p.

(* The answer is the relation that is specified, or [rel] and [C] holds. *)
Definition answer_or (S : relation -> Prop) (rel : relation) (C : Prop) (r : res relation) : Prop :=
  answer_is S r \/ r = Ok rel /\ C.
