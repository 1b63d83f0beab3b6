(* What the relations of two lists of segments to the same segments say about
   both lists together, with crossing told from touching. *)
From Coq Require Import List.
From Verif Require Import Base SpecJoin.
Import ListNotations.

Definition joined_sided (a b : relation) : list relation :=
  match a, b with
  | DISJOINT, TOUCH | TOUCH, DISJOINT => [TOUCH]
  | CROSS, (DISJOINT | TOUCH | CROSS) | (DISJOINT | TOUCH), CROSS => [CROSS]
  | _, _ => joined_segments a b
  end.
