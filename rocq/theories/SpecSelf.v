(* The segments of a list as a multisegment; edges that do not cross. *)
From Coq Require Import QArith Qcanon List Bool.
From Verif Require Import Scalar Base Ground Spec SpecAreas SpecContact.
Import ListNotations.
Open Scope Qc_scope.

Definition as_multisegment (l : list (point * point)) : multisegment := MSeg (map (fun e => Seg (fst e) (snd e)) l).
(* No two of them cut each other between their ends. *)
Definition uncrossed (l : list (point * point)) : Prop :=
  forall e e' p, In e l -> In e' l -> ~ cuts_at e e' p.
