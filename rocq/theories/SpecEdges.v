(* What the relations of the segments of a line to an area say about the line. *)
From Coq Require Import QArith Qcanon List Bool.
From Verif Require Import Scalar Base Ground Spec.
Import ListNotations.

Definition edge_segments (c : contour) : list segment := map (fun e => Seg (fst e) (snd e)) (cyc_pairs (vertices c)).
(* A relation that tells of points in the interior, outside and on the boundary. *)
Definition goes_in (r : relation) : bool := match r with CROSS | ENCLOSED | WITHIN => true | _ => false end.
Definition goes_out (r : relation) : bool := match r with DISJOINT | TOUCH | CROSS => true | _ => false end.
Definition goes_along (r : relation) : bool := match r with TOUCH | COMPONENT | ENCLOSED => true | _ => false end.
(* The relation of the whole line. *)
Definition joined_all (l : list relation) : relation :=
  if existsb goes_in l then if existsb goes_out l then CROSS else if existsb goes_along l then ENCLOSED else WITHIN
  else if existsb goes_out l then if existsb goes_along l then TOUCH else DISJOINT
  else COMPONENT.
(* The answer for the line follows from the answers for its segments. *)
Definition pieced_together (f : segment -> res relation) (l : list segment) (u : res relation) : Prop :=
  exists rels, map f l = map (@Ok relation) rels /\ u = Ok (joined_all rels).
(* Two lines: no common points, common segments, one is a part of the other. *)
Definition sharing_relations : list relation := [OVERLAP; COMPONENT; COMPOSITE; EQUAL].
Definition lying_relations : list relation := [COMPONENT; EQUAL].
Definition one_of (l : list relation) (u : res relation) : Prop := exists rel, In rel l /\ u = Ok rel.
