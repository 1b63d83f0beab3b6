(* What a region and its contour, or a line related to a contour and to its
   region, have to do with each other. *)
From Coq Require Import QArith Qcanon List Bool.
From Verif Require Import Scalar Base Ground Spec SpecAreas SpecContact.
Import ListNotations.

(* The relation of the contour to a region, told by the relation of its region. *)
Definition border_relation (rel : relation) : relation :=
  match rel with
  | COVER => DISJOINT
  | ENCLOSES | COMPOSITE => TOUCH
  | OVERLAP => CROSS
  | EQUAL => COMPONENT
  | _ => rel
  end.
(* The same for areas of several parts or with holes. *)
Definition border_relations (rel : relation) : list relation :=
  match rel with
  | DISJOINT | COVER => [DISJOINT]
  | TOUCH | ENCLOSES | COMPOSITE => [TOUCH; COMPONENT]
  | OVERLAP => [DISJOINT; TOUCH; CROSS; COMPONENT; ENCLOSED; WITHIN]
  | EQUAL | COMPONENT => [COMPONENT]
  | ENCLOSED => [ENCLOSED]
  | WITHIN => [WITHIN]
  | CROSS => []
  end.
(* The relations of a line to a contour, told by the one to its region. *)
Definition rim_relations (rel : relation) : list relation :=
  match rel with
  | DISJOINT | WITHIN => [DISJOINT]
  | TOUCH | ENCLOSED => [TOUCH; OVERLAP; COMPOSITE]
  | CROSS => [DISJOINT; TOUCH; CROSS; OVERLAP; COMPOSITE]
  | COMPONENT => [COMPONENT; EQUAL]
  | _ => []
  end.
(* The relations of the contours, told by the relation of the regions. *)
Definition ring_relations (rel : relation) : list relation :=
  match rel with
  | DISJOINT | WITHIN | COVER => [DISJOINT]
  | TOUCH | ENCLOSED | ENCLOSES => [TOUCH; OVERLAP]
  | OVERLAP => [TOUCH; CROSS; OVERLAP]
  | EQUAL => [EQUAL]
  | _ => []
  end.
(* Both calls return, and the second answer is one of those the first one allows. *)
Definition tells (f : relation -> list relation) (r r' : res relation) : Prop :=
  exists rel rel', r = Ok rel /\ r' = Ok rel' /\ In rel' (f rel).
(* The same for a single segment. *)
Definition side_relations (rel : relation) : list relation :=
  match rel with
  | DISJOINT | WITHIN => [DISJOINT]
  | TOUCH | ENCLOSED => [TOUCH; OVERLAP]
  | CROSS => [CROSS; OVERLAP]
  | COMPONENT => [COMPONENT]
  | _ => []
  end.
