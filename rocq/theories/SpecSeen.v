(* Cuts that the sweep notices. *)
From Coq Require Import QArith Qcanon List Bool.
From Verif Require Import Scalar Base Ground Spec SpecAreas SpecAround SpecContact.
Import ListNotations.
Open Scope Qc_scope.

(* No edge of the list runs from [p] along the way to [h]. *)
Definition free_way (l : list (point * point)) (p h : point) : Prop :=
  forall f d, In f l -> on_segment (fst f) (snd f) p -> on_segment (fst f) (snd f) d -> d <> p -> ~ on_segment p h d.
(* Edges of the lists cut each other, and not all the four ways along these
   edges are taken by edges of the other list. *)
Definition seen_cut (l l' : list (point * point)) : Prop :=
  exists e e' p, In e l /\ In e' l' /\ cuts_at e e' p
    /\ exists h, (h = fst e \/ h = snd e) /\ free_way l' p h \/ (h = fst e' \/ h = snd e') /\ free_way l p h.

(* The answer is [rel] if [C], and else the relation that is specified. *)
Definition told_by (S : relation -> Prop) (rel : relation) (C : Prop) (r : res relation) : Prop :=
  (C -> r = Ok rel) /\ (~ C -> answer_is S r).
(* The same for multisegments: without [C] they are answered TOUCH where they
   run around the area. *)
Definition lines_told_by (S : relation -> Prop) (around C : Prop) (r : res relation) : Prop :=
  (C -> r = Ok CROSS) /\ (~ C -> (~ around -> answer_is S r) /\ (around -> r = Ok TOUCH)).

(* Polygons without holes. *)
Definition as_polygons (rs : multiregion) : multipolygon := MPoly (map (fun r => Poly r []) rs).
